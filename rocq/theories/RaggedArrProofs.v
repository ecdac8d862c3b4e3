(** Arrays and tensors in specs behave as the nested lists of their entries. *)
From Verif Require Export RaggedArr ExpandProofs NdSpecProofs NdSpecLaws.
Open Scope Z_scope.

(** tolist() of an array, and of all arrays inside a value. *)
Fixpoint arr_tree {A} (sh : list Z) (f : list Z -> A) : tree A :=
  match sh with
  | [] => Leaf (f [])
  | n :: s => Node (map (fun i => arr_tree s (fun p => f (i :: p))) (zrange n))
  end.
Fixpoint to_tree {A} (v : val A) : tree A :=
  match v with
  | VLeaf a => Leaf a
  | VList l => Node (map to_tree l)
  | VArr _ x => arr_tree (shp x) (at_ x)
  end.
(** No array inside has an axis of length 0. *)
Inductive solid {A} : val A -> Prop :=
| solid_leaf a : solid (VLeaf a)
| solid_list l : (forall v, In v l -> solid v) -> solid (VList l)
| solid_arr b x : Forall (fun n => 1 <= n) (shp x) -> solid (VArr b x).
(** Both succeed, with related results, or both fail; an array may raise RuntimeError (torch) for
    ValueError and IndexError for TypeError. *)
Definition err_like (e e' : err) : Prop :=
  e' = e \/ (e = ValueError /\ e' = RuntimeError) \/ (e = TypeError /\ e' = IndexError).
Definition like {A B} (R : A -> B -> Prop) (a : res A) (b : res B) : Prop :=
  match a, b with Ok x, Ok y => R x y | Err e', Err e => err_like e e' | _, _ => False end.
Definition as_tree {A} (v : val A) (t : tree A) : Prop := t = to_tree v /\ solid v.
Definition as_spec {A} (s : vspec A) (t : ndspec A) : Prop :=
  as_tree (vs_data s) (nd_data t) /\ nd_shape t = vs_shape s /\ nd_pos t = vs_pos s.

Lemma like_bind {A A' B B'} (R : A -> B -> Prop) (R' : A' -> B' -> Prop) a b f g :
  like R a b -> (forall x y, R x y -> like R' (f x) (g y)) -> like R' (bind a f) (bind b g).
Proof. destruct a, b; simpl; intros H G; try contradiction; auto. Qed.
Lemma like_mapM {A A' B B'} (Q : A -> B -> Prop) (R : A' -> B' -> Prop) f g l m :
  Forall2 Q l m -> (forall x y, In x l -> Q x y -> like R (f x) (g y)) -> like (Forall2 R) (mapM f l) (mapM g m).
Proof.
  induction 1 as [|x y l m Hxy H IH]; intros G; cbn [mapM]; [constructor|].
  apply (like_bind R); [apply G; auto; now left|]. intros u v Huv. apply (like_bind (Forall2 R)); [apply IH; intros; apply G; auto; now right|].
  intros us vs Hus. constructor; auto.
Qed.
Lemma as_trees {A} (l : list (val A)) : (forall v, In v l -> solid v) -> Forall2 as_tree l (map to_tree l).
Proof. induction l; intros H; cbn [map]; constructor; [split; [auto|apply H; now left]|apply IHl; intros; apply H; now right]. Qed.
Lemma trees_back {A} (l : list (val A)) m : Forall2 as_tree l m -> m = map to_tree l /\ (forall v, In v l -> solid v).
Proof.
  induction 1 as [|v t l m [-> S] H [-> IH]]; cbn [map]; [split; [auto|intros ? []]|]. split; [auto|]. intros u [<-|Hu]; auto.
Qed.

Fixpoint val_rect' {A} (P : val A -> Prop) (HL : forall a, P (VLeaf a)) (HN : forall l, Forall P l -> P (VList l)) (HA : forall b x, P (VArr b x)) (v : val A) : P v :=
  match v with
  | VLeaf a => HL a
  | VArr b x => HA b x
  | VList l => HN l ((fix go l := match l return Forall P l with
                                 | [] => Forall_nil P
                                 | u :: r => Forall_cons u (val_rect' P HL HN HA u) (go r)
                                 end) l)
  end.

Lemma tree_repeat {A} (v : val A) k : map to_tree (repeat v k) = repeat (to_tree v) k.
Proof. induction k as [|k IH]; cbn [repeat map]; [reflexivity|]. now rewrite IH. Qed.

Section S.
Context {A : Type}.
Variable junk : list Z -> A.
Notation tr := (tree A).

Lemma arr_tree_ext sh : forall f g : list Z -> A, (forall i, valid sh i -> f i = g i) -> arr_tree sh f = arr_tree sh g.
Proof.
  induction sh as [|n s IH]; intros f g H; cbn [arr_tree]; [now rewrite H by constructor|]. f_equal. apply map_ext_in. intros i Hi. apply In_zrange in Hi.
  apply IH. intros p Vp. apply H. constructor; auto.
Qed.
Lemma same_all (s : list Z) : forall ss, (forall s', In s' ss -> s' = s) -> ss <> [] -> same_ndim ss = true /\ head_ndim ss = length s /\ common ss (length s) = s.
Proof.
  intros ss H Hne. split; [apply (same_ndim_intro _ (length s)); intros s' Hs; now rewrite (H s' Hs)|].
  destruct ss as [|s0 r]; [congruence|]. split; [cbn; now rewrite (H s0) by (now left)|].
  apply nth_ext with (d := 0) (d' := 0); [apply common_length|]. rewrite common_length. intros k Hk. rewrite common_nth by auto.
  apply agree_all; [discriminate|]. intros s' Hs. now rewrite (H s' Hs).
Qed.
Lemma arr_ragged : forall sh (f : list Z -> A), Forall (fun n => 1 <= n) sh -> ragged_shape (arr_tree sh f) = sh.
Proof.
  induction sh as [|n s IH]; intros f H; cbn [arr_tree]; [reflexivity|]. inversion H; subst.
  set (l := map (fun i => arr_tree s (fun p => f (i :: p))) (zrange n)).
  assert (Ll : length l = Z.to_nat n) by (unfold l; now rewrite map_length, zrange_length).
  assert (Hne : map ragged_shape l <> []) by (intros E; apply (f_equal (@length _)) in E; rewrite map_length, Ll in E; simpl in E; lia).
  assert (Hs : forall s', In s' (map ragged_shape l) -> s' = s).
  { intros s' Hi. apply in_map_iff in Hi as [u [<- Hu]]. unfold l in Hu. apply in_map_iff in Hu as [i [<- _]]. now apply IH. }
  destruct (same_all s _ Hs Hne) as [E1 [E2 E3]].
  cbn [ragged_shape]. destruct (map ragged_shape l) as [|s0 r] eqn:E; [congruence|]. rewrite E1, E2, E3. unfold len. rewrite Ll. f_equal. lia.
Qed.
Lemma to_tree_shape (v : val A) : solid v -> ragged_shape (to_tree v) = vshape v.
Proof.
  induction v as [a|l IH|b x] using val_rect'; intros H; cbn [to_tree vshape]; [reflexivity| |].
  - inversion H; subst. cbn [ragged_shape]. rewrite map_map.
    assert (E : map (fun x => ragged_shape (to_tree x)) l = map vshape l).
    { apply map_ext_in. intros u Hu. rewrite Forall_forall in IH. auto. }
    rewrite E. unfold len. rewrite map_length. reflexivity.
  - inversion H; subst. now apply arr_ragged.
Qed.

Lemma map2_keep_valid : forall sh target i, Forall target_ok target -> length target = length sh ->
  all2 (fun o n => (n =? -1) || stretches o n) sh target = true -> valid (map2 keep_len sh target) i -> valid sh (map2 (fun n k => if n =? 1 then 0 else k) sh i).
Proof.
  induction sh as [|o sh IH]; intros [|n target] i Ht L H V; cbn in *; try discriminate; [constructor|].
  inversion V as [|k m i' sh' Hk V']; subst. inversion Ht as [|? ? Hn Ht']; subst. cbn [map2]. apply andb_true_iff in H as [H1 H2].
  constructor; [|eapply IH; eauto; congruence].
  apply orb_true_iff in H1. unfold keep_len, stretches in *. destruct (Z.eqb_spec n (-1)).
  - destruct (Z.eqb_spec o 1); lia.
  - destruct H1 as [H1|H1]; [discriminate|]. destruct (Z.eqb_spec o 1); [lia|]. destruct (Z.eqb_spec o n); [lia|discriminate].
Qed.
Lemma repeat_const {B} (c : B) n g : (forall i, g i = c) -> repeat c (Z.to_nat n) = map g (zrange n).
Proof. intros H. rewrite (map_ext g (fun _ => c)) by auto. rewrite <- (zrange_length n). induction (zrange n); cbn; congruence. Qed.
Definition changed (sh target : list Z) : bool := negb (all2 Z.eqb (map2 keep_len sh target) sh).
Lemma arr_expand : forall target sh (f : list Z -> A), length target = length sh -> Forall (fun n => 1 <= n) sh -> Forall target_ok target ->
  recursive_expand target (arr_tree sh f) =
  if all2 (fun o n => (n =? -1) || stretches o n) sh target
  then Ok (arr_tree (map2 keep_len sh target) (fun i => f (map2 (fun n k => if n =? 1 then 0 else k) sh i)), map2 keep_len sh target, changed sh target)
  else Err ValueError.
Proof.
  induction target as [|n target IH]; intros [|o s] f L Hs Ht; try discriminate; [reflexivity|].
  injection L as L. inversion Hs as [|? ? Ho Hs']; subst. inversion Ht as [|? ? Hn Ht']; subst.
  cbn [arr_tree recursive_expand]. set (g := fun i => arr_tree s (fun p => f (i :: p))).
  assert (Zo : zrange o = 0 :: map (fun i => i + 1) (zrange (o - 1))).
  { apply list_ext with (d := 0); [cbn [length]; rewrite map_length, !zrange_length; lia|]. intros k Hk. rewrite zrange_length in Hk.
    destruct k as [|k]; [now rewrite nth_zrange by lia|]. cbn [nth]. rewrite nth_zrange by lia.
    rewrite (nth_indep _ 0 ((fun i => i + 1) 0)) by (rewrite map_length, zrange_length; lia). rewrite (map_nth (fun i => i + 1)), nth_zrange by lia. lia. }
  assert (Ne : map g (zrange o) <> []) by (rewrite Zo; discriminate).
  assert (Lo : len (map g (zrange o)) = o) by (unfold len; rewrite map_length, zrange_length; lia).
  destruct (map g (zrange o)) as [|c l0] eqn:EL; [congruence|]. rewrite <- EL in *. clear c l0 EL.
  set (ok := all2 (fun o n => (n =? -1) || stretches o n) s target) in *. cbn [all2]. fold ok.
  assert (EM : mapM (recursive_expand target) (map g (zrange o)) =
    if ok then Ok (map (fun i => (arr_tree (map2 keep_len s target) (fun q => f (i :: map2 (fun n k => if n =? 1 then 0 else k) s q)), map2 keep_len s target, changed s target)) (zrange o)) else Err ValueError).
  { assert (E : forall i, recursive_expand target (g i) = if ok then Ok (arr_tree (map2 keep_len s target) (fun q => f (i :: map2 (fun n k => if n =? 1 then 0 else k) s q)), map2 keep_len s target, changed s target) else Err ValueError).
    { intros i. unfold g. rewrite IH by auto. reflexivity. }
    destruct ok.
    - clear - E. induction (zrange o) as [|i l IHl]; cbn [map mapM]; [reflexivity|]. rewrite E, IHl. reflexivity.
    - rewrite Zo. cbn [map mapM]. now rewrite E. }
  rewrite EM. destruct ok eqn:Eok; [|cbn [bind]; now rewrite andb_false_r]. cbn [bind]. rewrite andb_true_r. rewrite !map_map. cbn [fst snd].
  set (h := fun i => arr_tree (map2 keep_len s target) (fun q => f (i :: map2 (fun n k => if n =? 1 then 0 else k) s q))).
  change (map (fun x => arr_tree _ _) (zrange o)) with (map h (zrange o)).
  destruct (same_all (map2 keep_len s target) (map (fun _ => map2 keep_len s target) (zrange o))) as [E1 [E2 E3]].
  { intros s' Hi. now apply in_map_iff in Hi as [i [<- _]]. }
  { rewrite Zo. discriminate. }
  rewrite E1, E2, E3. cbn [assertb bind].
  assert (EX : existsb snd (map (fun i => (h i, map2 keep_len s target, changed s target)) (zrange o)) = changed s target).
  { rewrite Zo. destruct (changed s target); [reflexivity|]. cbn [map existsb snd orb]. clear. induction (map (fun i => i + 1) (zrange (o - 1))) as [|z zs IHz]; [reflexivity|]. cbn [map existsb snd orb]. exact IHz. }
  unfold h in EX at 1. rewrite EX. clear EX. cbv zeta.
  assert (EA : (if changed s target then map h (zrange o) else map g (zrange o)) = map h (zrange o)).
  { destruct (changed s target) eqn:EC; [reflexivity|]. apply map_ext_in. intros i _. unfold g, h.
    assert (Eq : map2 keep_len s target = s). { unfold changed in EC. apply negb_false_iff in EC. clear - EC. now apply all2_eqb_eq in EC. }
    rewrite Eq. apply arr_tree_ext. intros p Vp. f_equal. f_equal. clear - Vp. revert p Vp. induction s as [|n s IH]; intros p Vp; inversion Vp; subst; [reflexivity|].
    cbn [map2]. rewrite <- IH by auto. destruct (Z.eqb_spec n 1); [f_equal; lia|reflexivity]. }
  rewrite EA. assert (Lh : len (map h (zrange o)) = o) by (unfold len; rewrite map_length, zrange_length; lia). rewrite Lh.
  cbn [map2 arr_tree].
  destruct (Z.eqb_spec n (-1)) as [->|N1].
  { cbn [orb]. assert (K : keep_len o (-1) = o) by reflexivity. rewrite !K. f_equal. f_equal; [f_equal|].
    - f_equal. apply map_ext_in. intros i Hi. apply In_zrange in Hi. unfold h. apply arr_tree_ext. intros p Vp. cbn [map2].
      destruct (Z.eqb_spec o 1); [replace i with 0 by lia; reflexivity|reflexivity].
    - unfold changed. cbn [map2 all2]. rewrite K, Z.eqb_refl. reflexivity. }
  cbn [orb]. unfold stretches. rewrite (Z.eqb_sym n o). destruct (Z.eqb_spec o n) as [->|N2].
  { cbn [orb]. assert (K : keep_len n n = n) by (unfold keep_len; destruct (n =? -1); reflexivity). rewrite !K. f_equal. f_equal; [f_equal|].
    - f_equal. apply map_ext_in. intros i Hi. apply In_zrange in Hi. unfold h. apply arr_tree_ext. intros p Vp. cbn [map2].
      destruct (Z.eqb_spec n 1); [replace i with 0 by lia; reflexivity|reflexivity].
    - unfold changed. cbn [map2 all2]. rewrite K, Z.eqb_refl. reflexivity. }
  destruct Hn as [Hn|Hn]; [lia|]. destruct (Z.eqb_spec n 0); [lia|]. cbn [orb]. destruct (Z.eqb_spec o 1) as [->|N3].
  - change (zrange 1) with [0]. cbn [map]. assert (K : keep_len 1 n = n) by (unfold keep_len; destruct (Z.eqb_spec n (-1)); [lia|reflexivity]). rewrite !K. f_equal. f_equal; [f_equal|].
    + f_equal. apply repeat_const. intros i. reflexivity.
    + unfold changed. cbn [map2 all2]. rewrite K. destruct (Z.eqb_spec n 1); [lia|]. reflexivity.
  - destruct (map h (zrange o)) as [|c [|c' r]] eqn:El; try reflexivity. exfalso. cbn in Lh. lia.
Qed.

Lemma stretch_test : forall sh target, length target = length sh -> Forall (fun n => 1 <= n) sh -> Forall target_ok target ->
  all2 stretches sh (map2 keep_len sh target) && forallb (fun n => 0 <=? n) (map2 keep_len sh target) = all2 (fun o n => (n =? -1) || stretches o n) sh target.
Proof.
  induction sh as [|o sh IH]; intros [|n target] L Hs Ht; try discriminate; [reflexivity|]. injection L as L.
  inversion Hs as [|? ? Ho Hs']; subst. inversion Ht as [|? ? Hn Ht']; subst. cbn [map2 all2 forallb]. rewrite <- (IH target) by auto.
  destruct (all2 stretches sh (map2 keep_len sh target)), (forallb (fun n => 0 <=? n) (map2 keep_len sh target)); rewrite ?andb_true_r, ?andb_false_r; try reflexivity.
  unfold keep_len, stretches. destruct (Z.eqb_spec n (-1)); cbn [orb].
  - rewrite Z.eqb_refl. cbn [orb andb]. apply Z.leb_le. lia.
  - destruct Hn as [Hn|Hn]; [lia|]. destruct (Z.leb_spec 0 n); [|lia]. now rewrite andb_true_r.
Qed.
Lemma keep_pos : forall sh target, Forall (fun n => 1 <= n) sh -> Forall target_ok target -> Forall (fun n => 1 <= n) (map2 keep_len sh target).
Proof.
  induction sh as [|o sh IH]; intros [|n target] Hs Ht; cbn [map2]; constructor; inversion Hs; inversion Ht; subst; auto.
  unfold keep_len. destruct (Z.eqb_spec n (-1)); auto. match goal with H : target_ok n |- _ => destruct H; lia end.
Qed.
Definition expand_like (r : val A * list Z * bool) (q : tr * list Z * bool) : Prop :=
  as_tree (fst (fst r)) (fst (fst q)) /\ snd (fst q) = snd (fst r) /\ snd q = snd r.
Lemma arr_like b (x : tensor A) target : length target = length (shp x) -> Forall (fun n => 1 <= n) (shp x) -> Forall target_ok target ->
  like expand_like (r <- broadcast b x target ;; Ok (VArr b r, shp r, negb (all2 Z.eqb (shp r) (shp x)))) (recursive_expand target (to_tree (VArr b x))).
Proof.
  intros L Hs Ht. cbn [to_tree]. rewrite arr_expand by auto.
  assert (E : match broadcast b x target with
              | Ok r => all2 (fun o n => (n =? -1) || stretches o n) (shp x) target = true /\ shp r = map2 keep_len (shp x) target /\
                        forall i, at_ r i = at_ x (map2 (fun n k => if n =? 1 then 0 else k) (shp x) i)
              | Err e => all2 (fun o n => (n =? -1) || stretches o n) (shp x) target = false /\ err_like ValueError e end).
  { unfold broadcast. destruct b.
    - unfold torch_expand. rewrite L. rewrite Nat.ltb_irrefl, Nat.sub_diag. cbn [firstn skipn app]. rewrite stretch_test by auto.
      destruct (all2 _ (shp x) target); [split; [auto|split; [reflexivity|reflexivity]]|split; [auto|right; left; auto]].
    - unfold np_broadcast. cbv zeta. rewrite stretch_test by auto.
      destruct (all2 _ (shp x) target); [split; [auto|split; [reflexivity|reflexivity]]|split; [auto|left; auto]]. }
  destruct (broadcast b x target) as [r|e].
  - destruct E as [-> [E1 E2]]. cbn [bind like]. split; [|split]; cbn [fst snd].
    + split; [cbn [to_tree]; rewrite E1; apply arr_tree_ext; auto|]. constructor. rewrite E1. now apply keep_pos.
    + now rewrite E1.
    + now rewrite E1.
  - destruct E as [-> E]. exact E.
Qed.

Lemma expand_likes rs qs : Forall2 expand_like rs qs ->
  map (fun r => fst (fst r)) qs = map to_tree (map (fun r => fst (fst r)) rs) /\ map (fun r => snd (fst r)) qs = map (fun r => snd (fst r)) rs /\
  existsb snd qs = existsb snd rs /\ (forall v, In v (map (fun r => fst (fst r)) rs) -> solid v) /\ length qs = length rs.
Proof.
  induction 1 as [|r q rs qs [[H1 H1'] [H2 H3]] H [I1 [I2 [I3 [I4 I5]]]]]; cbn [map existsb length]; [repeat split; intros ? []|].
  rewrite I1, I2, I3, I5, H1, H2, H3. repeat split. intros v [<-|Hv]; auto.
Qed.
Lemma vshape_depth (c : val A) l : length (vshape (VList (c :: l))) = S (if same_ndim (map vshape (c :: l)) then length (vshape c) else 0).
Proof. cbn [vshape map]. cbn [length]. rewrite common_length. reflexivity. Qed.
Lemma vexpand_like : forall target (v : val A), solid v -> Forall target_ok target -> length target = length (vshape v) ->
  like expand_like (vexpand junk target v) (recursive_expand target (to_tree v)).
Proof.
  induction target as [|n target IH]; intros v S Ht L.
  { cbn. repeat split; auto. }
  inversion Ht as [|? ? Hn Ht']; subst. destruct v as [a|l|b x]; [discriminate| |inversion S; subst; now apply arr_like].
  inversion S as [|? Sl|]; subst. destruct l as [|c l]; [cbn; repeat split; auto|].
  assert (Hc : forall v, In v (c :: l) -> like expand_like (vexpand junk target v) (recursive_expand target (to_tree v))).
  { intros v Hv. rewrite vshape_depth in L. apply Nat.succ_inj in L. fold (@length Z target) in L. destruct (same_ndim (map vshape (c :: l))) eqn:E.
    - apply IH; auto. etransitivity; [exact L|]. symmetry. change (length (vshape c)) with (head_ndim (map vshape (c :: l))). apply (same_ndim_spec _ _ E). now apply in_map.
    - destruct target; [|discriminate]. cbn. repeat split; auto. }
  cbn [to_tree]. cbn [vexpand recursive_expand]. set (l0 := c :: l) in *.
  change (map to_tree l0) with (to_tree c :: map to_tree l). cbv iota. change (to_tree c :: map to_tree l) with (map to_tree l0).
  apply (like_bind (Forall2 expand_like)).
  { apply (like_mapM as_tree); [apply as_trees; auto|]. intros v t Hv [-> _]. auto. }
  intros rs qs HR. destruct (expand_likes rs qs HR) as [E1 [E2 [E3 [E4 E5]]]]. rewrite E1, E2, E3. cbv zeta.
  destruct (same_ndim (map (fun r => snd (fst r)) rs)); [|cbn; now left]. cbn [assertb bind].
  set (arr := if existsb snd rs then map (fun r => fst (fst r)) rs else l0).
  assert (Ea : (if existsb snd rs then map to_tree (map (fun r => fst (fst r)) rs) else map to_tree l0) = map to_tree arr) by (unfold arr; now destruct (existsb snd rs)).
  rewrite Ea. assert (Sa : forall v, In v arr -> solid v) by (unfold arr; destruct (existsb snd rs); auto).
  unfold len. rewrite map_length. clearbody arr.
  destruct ((n =? -1) || (n =? Z.of_nat (length arr))).
  { cbn. repeat split; auto. constructor; auto. }
  destruct (Z.eqb_spec n 0); [destruct Hn; lia|]. destruct arr as [|v [|w arr]]; cbn [map]; [cbn; now left| |cbn; now left].
  cbn. assert (Sv : solid v) by (apply Sa; now left). repeat split.
  - cbn [fst snd to_tree]. now rewrite tree_repeat.
  - constructor. intros w Hw. apply repeat_spec in Hw. now subst.
Qed.
Lemma wrap_like n (d : val A * list Z) (e : tr * list Z) : as_tree (fst d) (fst e) /\ snd e = snd d ->
  as_tree (fst (vwrap n d)) (fst (wrap n e)) /\ snd (wrap n e) = snd (vwrap n d).
Proof.
  intros [[H1 H2] H3]. unfold vwrap, wrap. destruct (n =? -1); cbn [fst snd]; rewrite H1, H3; (split; [split|reflexivity]).
  - reflexivity.
  - constructor. now intros v [<-|[]].
  - cbn [fst snd to_tree]. now rewrite tree_repeat.
  - constructor. intros w Hw. apply repeat_spec in Hw. now subst.
Qed.
Lemma wraps_like lead (d : val A * list Z) (e : tr * list Z) : as_tree (fst d) (fst e) /\ snd e = snd d ->
  as_tree (fst (fold_right vwrap d lead)) (fst (fold_right wrap e lead)) /\ snd (fold_right wrap e lead) = snd (fold_right vwrap d lead).
Proof. intros H. induction lead as [|n lead IH]; cbn [fold_right]; auto. now apply wrap_like. Qed.
Definition pair_like (r : val A * list Z) (q : tr * list Z) : Prop := as_tree (fst r) (fst q) /\ snd q = snd r.
Theorem expand_arrays (v : val A) new : solid v -> Forall target_ok new ->
  like pair_like (vexpand_ragged junk v (vshape v) new) (expand_ragged (to_tree v) (ragged_shape (to_tree v)) new).
Proof.
  intros S Hn. rewrite to_tree_shape by auto. unfold vexpand_ragged, expand_ragged. destruct (all2 Z.eqb (vshape v) new); [cbn; repeat split; auto|].
  destruct (zero_length (vshape v) new); [cbn; now left|]. cbv zeta.
  destruct (Nat.ltb_spec (length (vshape v)) (length new)) as [H|H].
  - apply (like_bind expand_like).
    + apply vexpand_like; auto; [|rewrite skipn_length; lia]. apply Forall_forall. intros n Hi. rewrite Forall_forall in Hn. apply Hn.
      rewrite <- (firstn_skipn (length new - length (vshape v)) new). apply in_or_app. now right.
    + intros [[r s] m] [[q s'] m'] [H1 [H2 H3]]. cbn [fst snd] in *. subst. cbn [like]. apply wraps_like. cbn [fst snd]. auto.
  - apply (like_bind expand_like).
    + apply vexpand_like; auto; [|rewrite app_length, repeat_length; lia]. apply Forall_app. split; auto. apply Forall_forall. intros n Hi. apply repeat_spec in Hi. now left.
    + intros [[r s] m] [[q s'] m'] [H1 [H2 H3]]. cbn [fst snd] in *. subst. split; auto.
Qed.
Theorem item_arrays (v : val A) item_shape : solid v -> Forall target_ok item_shape -> like as_spec (vspec_item junk v item_shape) (ndspec_item (to_tree v) item_shape).
Proof.
  intros S Hn. unfold vspec_item, ndspec_item. apply (like_bind pair_like); [now apply expand_arrays|].
  intros [r s] [q s'] [H1 H2]. cbn [fst snd] in *. subst. split; [exact H1|split; reflexivity].
Qed.
Theorem index_arrays (v : val A) index_shape : solid v -> like as_spec (vspec_index v index_shape) (ndspec_index (to_tree v) index_shape).
Proof.
  intros S. unfold vspec_index, ndspec_index. rewrite to_tree_shape by auto. cbv zeta. destruct (check_index (vshape v) index_shape) as [[]|]; cbn; [|now left|now left].
  repeat split; auto.
Qed.

Lemma slice_tree (x : tensor A) n s i : shp x = n :: s -> to_tree (VArr true (slice0 x i)) = arr_tree s (fun p => at_ x (i :: p)).
Proof. intros E. cbn [to_tree slice0 shp at_]. now rewrite E. Qed.
Lemma slice_solid b b' (x : tensor A) n s i : shp x = n :: s -> solid (VArr b x) -> solid (VArr b' (slice0 x i)).
Proof. intros E H. inversion H as [| |? ? Hp]; subst. constructor. cbn [slice0 shp]. rewrite E in *. now inversion Hp. Qed.
Lemma like_pyidx (l : list (val A)) i : (forall v, In v l -> solid v) -> like as_tree (pyidx l i) (pyidx (map to_tree l) i).
Proof.
  intros S. unfold pyidx. rewrite map_length. cbv zeta. destruct (_ && _); [|cbn; now left]. rewrite nth_error_map.
  destruct (nth_error l _) eqn:E; cbn; [split; [auto|apply S; eapply nth_error_In; eauto]|now left].
Qed.
Lemma like_idx (v : val A) i : solid v -> like as_tree (val_idx v i) (tree_idx (to_tree v) i).
Proof.
  intros S. destruct v as [a|l|b x].
  - cbn. now left.
  - inversion S; subst. cbn [val_idx to_tree tree_idx]. now apply like_pyidx.
  - cbn [val_idx to_tree]. destruct (shp x) as [|n s] eqn:E; cbn [arr_tree tree_idx]; [right; right; auto|].
    inversion S as [| |? ? Hp]; subst. rewrite E in Hp. inversion Hp; subst.
    unfold pyidx. rewrite map_length, zrange_length, Z2Nat.id by lia. cbv zeta. set (k := if i <? 0 then i + n else i).
    destruct ((0 <=? k) && (k <? n)) eqn:Ek; [|cbn; now left]. apply andb_true_iff in Ek as [K1 K2]. apply Z.leb_le in K1. apply Z.ltb_lt in K2.
    rewrite nth_error_map. rewrite (nth_error_nth' _ 0) by (rewrite zrange_length; lia). rewrite nth_zrange by lia. cbn [option_map]. rewrite Z2Nat.id by lia.
    cbn [like]. split; [|eapply slice_solid; eauto]. cbn [to_tree slice0 shp at_]. rewrite E. reflexivity.
Qed.
Lemma like_fold (l : list Z) : forall (r : res (val A)) (q : res tr), like as_tree r q ->
  like as_tree (fold_left (fun r i => t <- r ;; val_idx t i) l r) (fold_left (fun r i => t <- r ;; tree_idx t i) l q).
Proof.
  induction l as [|i l IH]; intros r q H; cbn [fold_left]; auto. apply IH. apply (like_bind as_tree); auto. intros v t [-> S]. now apply like_idx.
Qed.
Theorem get_arrays (s : vspec A) (t : ndspec A) k : as_spec s t -> like as_tree (vs_get s k) (nd_get t k).
Proof.
  intros [[H1 S] [H2 H3]]. unfold vs_get, nd_get, vs_is_item, nd_is_item, vs_index_shape, nd_index_shape. rewrite H1, H2, H3.
  destruct (Nat.eqb (vs_pos s) 0); [cbn; split; auto|]. destruct k as [i|l]; [now apply like_idx|].
  destruct (Nat.ltb _ _); [cbn; now left|]. apply like_fold. cbn. split; auto.
Qed.
Lemma len_arrays (s : vspec A) (t : ndspec A) : as_spec s t -> vs_len s = nd_len t.
Proof. intros [_ [H2 H3]]. unfold vs_len, nd_len, vs_is_item, nd_is_item. now rewrite H2, H3. Qed.
Theorem iter_arrays (s : vspec A) (t : ndspec A) : as_spec s t -> vs_len s = nd_len t /\ like (Forall2 as_tree) (vs_iter s) (nd_iter t).
Proof.
  intros H. pose proof (len_arrays s t H) as L. split; auto. unfold vs_iter, nd_iter. rewrite L. pose proof H as [[H1 S] [H2 H3]]. unfold vs_is_item, nd_is_item. rewrite H3.
  destruct (Nat.eqb (vs_pos s) 0); [cbn; constructor; [split; auto|constructor]|]. destruct (nd_len t) as [n|]; [|cbn; now left]. cbn [bind].
  apply (like_mapM eq); [clear; induction (zrange n); constructor; auto|]. intros i j _ ->. now apply get_arrays.
Qed.
End S.

Section M.
Context {A B : Type}.
Lemma like_iter (v : val A) : solid v -> match to_tree v with Leaf _ => val_iter v = Err TypeError | Node l => exists l', val_iter v = Ok l' /\ Forall2 as_tree l' l end.
Proof.
  intros S. destruct v as [a|l|b x]; cbn [to_tree].
  - reflexivity.
  - inversion S; subst. exists l. split; [reflexivity|now apply as_trees].
  - cbn [val_iter]. destruct (shp x) as [|n s] eqn:E; cbn [arr_tree]; [reflexivity|]. eexists. split; [reflexivity|].
    induction (zrange n) as [|i l IH]; cbn [map]; constructor; auto. split; [cbn [to_tree slice0 shp at_]; rewrite E; reflexivity|]. eapply slice_solid; eauto.
Qed.
Lemma apply_like (f : val A -> res (val B)) (g : tree A -> res (tree B)) : (forall v, solid v -> like as_tree (f v) (g (to_tree v))) ->
  forall d v, solid v -> like as_tree (vapply f d v) (recursive_apply g d (to_tree v)).
Proof.
  intros H. induction d as [|d IH]; intros v S; cbn [vapply recursive_apply]; auto. pose proof (like_iter v S) as X. destruct (to_tree v) as [a|l].
  - rewrite X. cbn. now left.
  - destruct X as [l' [-> X]]. cbn [bind]. apply (like_bind (Forall2 as_tree)).
    + apply (like_mapM as_tree); auto. intros u t _ [-> Su]. auto.
    + intros us ts Hu. apply trees_back in Hu as [-> Hu]. cbn. split; [reflexivity|now constructor].
Qed.
Theorem map_arrays (f : val A -> res (val B)) (g : tree A -> res (tree B)) s t : (forall v, solid v -> like as_tree (f v) (g (to_tree v))) ->
  as_spec s t -> like as_spec (vs_map f s) (nd_map g t).
Proof.
  intros H [[H1 S] [H2 H3]]. unfold vs_map, nd_map, vs_item_shape, nd_item_shape, vs_index_shape, nd_index_shape. rewrite H1, H2, H3.
  apply (like_bind as_tree); [now apply apply_like|]. intros v u [-> Sv]. now apply index_arrays.
Qed.
Theorem starmap_arrays (f : list (val A) -> res (val B)) (g : list (tree A) -> res (tree B)) s t :
  (forall l, (forall v, In v l -> solid v) -> like as_tree (f l) (g (map to_tree l))) -> as_spec s t -> like as_spec (vs_starmap f s) (nd_starmap g t).
Proof.
  intros H. apply map_arrays. intros v S. pose proof (like_iter v S) as X. destruct (to_tree v) as [a|l].
  - rewrite X. cbn. now left.
  - destruct X as [l' [-> X]]. cbn [bind]. apply trees_back in X as [-> X]. auto.
Qed.
Lemma fill_like : forall sh done (f : list Z -> res (val B)) g, (forall i, like as_tree (f i) (g i)) -> like as_tree (vfill_index sh done f) (fill_index sh done g).
Proof.
  induction sh as [|n sh IH]; intros done f g H; cbn [vfill_index fill_index]; auto. apply (like_bind (Forall2 as_tree)).
  - apply (like_mapM eq); [clear; induction (zrange n); constructor; auto|]. intros i j _ ->. now apply IH.
  - intros us ts Hu. apply trees_back in Hu as [-> Hu]. cbn. split; [reflexivity|now constructor].
Qed.
Theorem apply_arrays (f : list (val A) -> res (val B)) (g : list (tree A) -> res (tree B)) ss ts :
  (forall l, (forall v, In v l -> solid v) -> like as_tree (f l) (g (map to_tree l))) -> Forall2 as_spec ss ts -> like as_spec (vs_apply f ss) (nd_apply g ts).
Proof.
  intros H HS. unfold vs_apply, nd_apply.
  assert (E : map nd_index_shape ts = map vs_index_shape ss).
  { clear H. induction HS as [|s t ss ts [_ [H2 H3]] HS IH]; cbn [map]; auto. rewrite IH. unfold nd_index_shape, vs_index_shape. now rewrite H2, H3. }
  rewrite E. destruct (agg_shape (map vs_index_shape ss)) as [sh|e]; [|cbn; now left]. cbn [bind]. apply (like_bind as_tree).
  - assert (D : Forall2 as_tree (map vs_data ss) (map nd_data ts)) by (clear - HS; induction HS as [|s t ss ts [X _] HS IH]; cbn [map]; constructor; auto).
    destruct sh as [|n sh]; [apply trees_back in D as [-> D]; auto|]. destruct (existsb _ _); [cbn; now left|].
    apply fill_like. intros i. apply (like_bind (Forall2 as_tree)).
    + apply (like_mapM as_spec); auto. intros s t _ X. now apply get_arrays.
    + intros us us' Hu. apply trees_back in Hu as [-> Hu]. auto.
  - intros v u [-> Sv]. now apply index_arrays.
Qed.
End M.
Theorem zip_arrays {A} (ss : list (vspec A)) ts : Forall2 as_spec ss ts -> like as_spec (vs_zip ss) (nd_zip ts).
Proof. apply apply_arrays. intros l S. cbn. split; [reflexivity|now constructor]. Qed.

(** A list of one-dimensional arrays, such as kernels, of any lengths: kept as they are. *)
Definition line {A} (v : val A) : Prop := exists b x n, v = VArr b x /\ shp x = [n] /\ 0 <= n.
Lemma line_keep {A} (junk : list Z -> A) v : line v -> exists r, vexpand junk [-1] v = Ok (r, vshape v, false).
Proof.
  intros [b [x [n [-> [E Hn]]]]]. cbn [vexpand vshape]. unfold broadcast, torch_expand, np_broadcast. rewrite E. cbn [length Nat.ltb Nat.leb Nat.sub firstn skipn app map2 all2 forallb].
  assert (K : keep_len n (-1) = n) by reflexivity. rewrite !K. unfold stretches. rewrite Z.eqb_refl. destruct (Z.leb_spec 0 n); [|lia].
  cbn [orb andb]. destruct b; cbn [bind]; unfold spread; cbn [shp all2]; rewrite Z.eqb_refl; eexists; reflexivity.
Qed.
Theorem kernels_kept {A} (junk : list Z -> A) l : l <> [] -> (forall v, In v l -> line v) ->
  exists s, vspec_item junk (VList l) [-1] = Ok s /\ vs_data s = VList l /\ vs_index_shape s = [Z.of_nat (length l)] /\ vs_len s = Ok (Z.of_nat (length l)) /\
    (length (vs_item_shape s) = 1)%nat /\ vs_iter s = Ok l /\ forall i, vs_get s (KInt i) = pyidx l i.
Proof.
  intros Hne Hl. set (ss := map vshape l). assert (L1 : forall s, In s ss -> length s = 1%nat).
  { intros s Hs. apply in_map_iff in Hs as [v [<- Hv]]. destruct (Hl v Hv) as [b [x [n [-> [E _]]]]]. cbn. now rewrite E. }
  assert (Sn : same_ndim ss = true) by (now apply (same_ndim_intro _ 1)).
  assert (Hd : head_ndim ss = 1%nat) by (unfold ss; destruct l as [|c l]; [congruence|]; cbn [map head_ndim]; apply L1; now left).
  assert (Sh : vshape (VList l) = [Z.of_nat (length l); agree ss 0]).
  { cbn [vshape]. fold ss. rewrite Sn, Hd. unfold ss. destruct l as [|c l]; [congruence|]. reflexivity. }
  assert (G : exists rs, mapM (vexpand junk [-1]) l = Ok rs /\ map (fun r => snd (fst r)) rs = ss /\ existsb snd rs = false).
  { unfold ss. clear - Hl. induction l as [|v l IH]; [exists []; auto|]. destruct (line_keep junk v) as [r Er]; [apply Hl; now left|].
    destruct IH as [rs [R1 [R2 R3]]]; [intros; apply Hl; now right|]. exists ((r, vshape v, false) :: rs). cbn [mapM]. rewrite Er, R1. cbn [bind map fst snd existsb orb]. rewrite R2. auto. }
  destruct G as [rs [G1 [G2 G3]]].
  exists (mkV (VList l) [Z.of_nat (length l); agree ss 0] 1).
  assert (I : vspec_item junk (VList l) [-1] = Ok (mkV (VList l) [Z.of_nat (length l); agree ss 0] 1)).
  { unfold vspec_item, vexpand_ragged. rewrite Sh. cbn [all2 length Nat.ltb Nat.leb Nat.sub]. rewrite andb_false_r. unfold zero_length. cbn [rev app combine existsb fst snd].
    change (0 <? -1) with false. rewrite andb_false_r. cbn [orb]. cbn [repeat app].
    destruct l as [|c l]; [congruence|]. remember [-1] as t1 eqn:Et in *. cbn [vexpand]. rewrite G1. subst t1. cbn [bind]. rewrite G2, G3, Sn, Hd. cbn [assertb bind]. cbv zeta. cbn [Z.eqb orb]. reflexivity. }
  split; [exact I|]. split; [reflexivity|]. split; [reflexivity|]. split; [reflexivity|]. split; [reflexivity|]. split; [|reflexivity].
  unfold vs_iter, vs_len, vs_is_item, vs_get. cbn [vs_pos Nat.eqb vs_shape]. change (pyidx [Z.of_nat (length l); agree ss 0] 0) with (Ok (Z.of_nat (length l))). cbn [bind].
  cbn [vs_is_item vs_pos Nat.eqb vs_data val_idx]. exact (mapM_pyidx l).
Qed.

(** What broadcast_to and expand accept. *)
Definition accepted (o n : Z) : Prop := n = -1 \/ (0 <= n /\ (n = o \/ o = 1)).
Lemma accepted_test : forall sh target, length target = length sh -> Forall (fun o => 0 <= o) sh ->
  (all2 stretches sh (map2 keep_len sh target) && forallb (fun n => 0 <=? n) (map2 keep_len sh target) = true <-> Forall2 accepted sh target).
Proof.
  induction sh as [|o sh IH]; intros [|n target] L Hs; try discriminate; [split; [constructor|reflexivity]|]. injection L as L.
  inversion Hs as [|? ? Ho Hs']; subst. specialize (IH target L Hs'). cbn [map2 all2 forallb].
  assert (E : stretches o (keep_len o n) && (0 <=? keep_len o n) = true <-> accepted o n).
  { unfold stretches, keep_len, accepted. destruct (Z.eqb_spec n (-1)).
    - rewrite Z.eqb_refl. destruct (Z.leb_spec 0 o); [|lia]. split; [intros _; now left|reflexivity].
    - rewrite andb_true_iff, orb_true_iff, !Z.eqb_eq, Z.leb_le. lia. }
  split.
  - intros H. apply andb_true_iff in H as [H1 H2]. apply andb_true_iff in H1 as [H1 H1']. apply andb_true_iff in H2 as [H2 H2'].
    constructor; [apply E; now rewrite H1, H2|apply IH; now rewrite H1', H2'].
  - intros H. inversion H as [|? ? ? ? X Y]; subst. apply E in X. apply IH in Y. apply andb_true_iff in X as [-> ->]. apply andb_true_iff in Y as [-> ->]. reflexivity.
Qed.
Definition stretched {A} (x r : tensor A) (target : list Z) : Prop :=
  length (shp r) = length (shp x) /\
  (forall d, (d < length (shp x))%nat -> nth d (shp r) 0 = if nth d target 0 =? -1 then nth d (shp x) 0 else nth d target 0) /\
  (forall i j, length i = length (shp x) -> length j = length (shp x) ->
     (forall d, (d < length (shp x))%nat -> nth d j 0 = if nth d (shp x) 0 =? 1 then 0 else nth d i 0) -> at_ r i = at_ x j).
Lemma stretched_ok {A} (x r : tensor A) target : length target = length (shp x) -> shp r = map2 keep_len (shp x) target ->
  (forall i, length i = length (shp x) -> at_ r i = at_ (spread x (shp r)) i) -> stretched x r target.
Proof.
  intros L E1 E2. assert (Lm : forall (f : Z -> Z -> Z) s t, length t = length s -> length (map2 f s t) = length s /\ forall d, (d < length s)%nat -> nth d (map2 f s t) 0 = f (nth d s 0) (nth d t 0)).
  { intros f. induction s as [|a s IH]; intros [|b t] Lt; try discriminate; [split; [reflexivity|intros d Hd; cbn in Hd; lia]|]. injection Lt as Lt. destruct (IH t Lt) as [I1 I2].
    cbn [map2 length]. split; [now rewrite I1|]. intros [|d] Hd; cbn [nth]; [reflexivity|]. apply I2. lia. }
  destruct (Lm keep_len (shp x) target L) as [K1 K2]. split; [now rewrite E1|]. split; [intros d Hd; rewrite E1, K2 by auto; reflexivity|].
  intros i j Li Lj H. rewrite E2 by auto. unfold spread. cbn [at_]. f_equal. destruct (Lm (fun n k => if n =? 1 then 0 else k) (shp x) i Li) as [M1 M2].
  apply list_ext with (d := 0); [now rewrite M1|]. rewrite M1. intros d Hd. rewrite M2, H by auto. reflexivity.
Qed.
Theorem broadcast_ends {A} b (x : tensor A) target : length target = length (shp x) -> Forall (fun o => 0 <= o) (shp x) ->
  (Forall2 accepted (shp x) target -> exists r, broadcast b x target = Ok r /\ stretched x r target) /\
  (~ Forall2 accepted (shp x) target -> broadcast b x target = Err (if b then RuntimeError else ValueError)).
Proof.
  intros L Hs. pose proof (accepted_test (shp x) target L Hs) as T. unfold broadcast, torch_expand, np_broadcast. rewrite L, Nat.ltb_irrefl, Nat.sub_diag. cbn [firstn skipn app]. cbv zeta.
  destruct (_ && _); split; intros H.
  - destruct b; eexists; (split; [reflexivity|]); apply stretched_ok; auto.
  - exfalso. apply H. now apply T.
  - exfalso. apply T in H. discriminate.
  - now destruct b.
Qed.
(** expand with more lengths than axes: the leading ones are new axes and must not be -1. *)
Theorem expand_more {A} (x : tensor A) lead target : length target = length (shp x) -> Forall (fun o => 0 <= o) (shp x) ->
  (Forall2 accepted (shp x) target -> Forall (fun n => 0 <= n) lead ->
     exists r r', torch_expand x (lead ++ target) = Ok r /\ torch_expand x target = Ok r' /\ shp r = lead ++ shp r' /\
       forall i j, length i = length lead -> at_ r (i ++ j) = at_ r' j) /\
  (~ (Forall2 accepted (shp x) target /\ Forall (fun n => 0 <= n) lead) -> torch_expand x (lead ++ target) = Err RuntimeError) /\
  (forall t, (length t < length (shp x))%nat -> torch_expand x t = Err RuntimeError).
Proof.
  intros L Hs. pose proof (accepted_test (shp x) target L Hs) as T.
  assert (E : torch_expand x (lead ++ target) = let sh := map2 keep_len (shp x) target in
    if all2 stretches (shp x) sh && forallb (fun n => 0 <=? n) (lead ++ sh) then Ok (mkT (lead ++ sh) (fun i => at_ (spread x sh) (skipn (length lead) i))) else Err RuntimeError).
  { unfold torch_expand. rewrite app_length, L. destruct (Nat.ltb_spec (length lead + length (shp x)) (length (shp x))); [lia|].
    replace (length lead + length (shp x) - length (shp x))%nat with (length lead) by lia. rewrite firstn_app, skipn_app, Nat.sub_diag, firstn_all, skipn_all.
    cbn [firstn skipn app]. rewrite app_nil_r. reflexivity. }
  assert (FL : forallb (fun n => 0 <=? n) lead = true <-> Forall (fun n => 0 <= n) lead).
  { rewrite forallb_forall, Forall_forall. split; intros H n Hn; specialize (H n Hn); [now apply Z.leb_le|now apply Z.leb_le]. }
  split; [|split].
  - intros H HL. apply T in H. apply FL in HL. rewrite E. cbv zeta. rewrite forallb_app, HL. cbn [andb]. rewrite H. eexists.
    unfold torch_expand. rewrite L, Nat.ltb_irrefl, Nat.sub_diag. cbn [firstn skipn app]. cbv zeta. rewrite H. eexists. split; [reflexivity|]. split; [reflexivity|]. split; [reflexivity|].
    intros i j Li. cbn [at_]. rewrite <- Li, skipn_app, Nat.sub_diag, skipn_all. reflexivity.
  - intros H. rewrite E. cbv zeta. rewrite forallb_app. destruct (all2 stretches (shp x) (map2 keep_len (shp x) target)) eqn:E1; [|reflexivity].
    destruct (forallb (fun n => 0 <=? n) lead) eqn:E2; [|reflexivity]. destruct (forallb (fun n => 0 <=? n) (map2 keep_len (shp x) target)) eqn:E3; [|reflexivity].
    exfalso. apply H. split; [apply T; reflexivity|now apply FL].
  - intros t Ht. unfold torch_expand. destruct (Nat.ltb_spec (length t) (length (shp x))); [reflexivity|lia].
Qed.
(** Target 0 turns a list of other length into a numpy array without entries. *)
Theorem list_to_none {A} (junk : list Z -> A) c l :
  vexpand_ragged junk (VList (c :: l)) [Z.of_nat (length (c :: l))] [0] = Ok (VArr false (mkT [0] junk), [0]).
Proof.
  assert (V : forall v : val A, vexpand junk [] v = Ok (v, [], false)) by (intros v; destruct v; reflexivity).
  assert (G : forall m, mapM (vexpand junk []) m = Ok (map (fun v => (v, [], false)) m)).
  { induction m as [|v m IH]; [reflexivity|]. cbn [mapM map]. rewrite V. cbn [bind]. rewrite IH. reflexivity. }
  assert (Z1 : (Z.of_nat (length (c :: l)) =? 0) = false) by (apply Z.eqb_neq; cbn [length]; lia).
  assert (Z2 : (0 =? Z.of_nat (length (c :: l))) = false) by (apply Z.eqb_neq; cbn [length]; lia).
  assert (S1 : same_ndim (map (fun _ : val A => []) (c :: l)) = true) by (apply (same_ndim_intro _ 0); intros s Hs; apply in_map_iff in Hs as [v [<- _]]; reflexivity).
  assert (E : existsb snd (map (fun v => (v, [] : list Z, false)) (c :: l)) = false) by (clear; induction (c :: l); cbn; auto).
  unfold vexpand_ragged. cbn [all2]. rewrite Z1. cbn [andb].
  assert (Z3 : zero_length [Z.of_nat (length (c :: l))] [0] = false).
  { unfold zero_length. cbn [rev app combine existsb fst snd]. rewrite Z1. reflexivity. }
  rewrite Z3. change (Nat.ltb (length [Z.of_nat (length (c :: l))]) (length [0])) with false. cbv iota.
  change (repeat (-1) (length [Z.of_nat (length (c :: l))] - length [0]) ++ [0]) with [0].
  change (vexpand junk [0] (VList (c :: l))) with
    (rs <- mapM (vexpand junk []) (c :: l) ;;
      let items := map (fun r => fst (fst r)) rs in
      let ss := map (fun r => snd (fst r)) rs in
      let modified := existsb snd rs in
      let arr := if modified then items else c :: l in
      _ <- assertb (same_ndim ss) ;;
      let item_shape := common ss (head_ndim ss) in
      if (0 =? -1) || (0 =? Z.of_nat (length arr)) then Ok (VList arr, Z.of_nat (length arr) :: item_shape, modified)
      else if 0 =? 0 then
        if existsb (fun d => d <? 0) item_shape then Err ValueError
        else Ok (VArr false (mkT (0 :: item_shape) junk), 0 :: item_shape, true)
      else match arr with
           | [c] => Ok (VList (repeat c (Z.to_nat 0)), 0 :: item_shape, true)
           | _ => Err ValueError
           end).
  rewrite G. cbn [bind]. cbv zeta. rewrite E, !map_map. cbn [fst snd]. rewrite S1. cbn [assertb bind]. rewrite Z2. reflexivity.
Qed.
(** A scalar handed over with a shape that is not its own is kept. *)
Theorem scalar_kept {A} (junk : list Z -> A) a n m : n <> m -> n <> 0 -> vexpand_ragged junk (VLeaf a) [n] [m] = Ok (VLeaf a, []).
Proof.
  intros H1 H2. apply Z.eqb_neq in H1, H2. unfold vexpand_ragged. cbn [all2]. rewrite H1. cbn [andb].
  unfold zero_length. cbn [rev app combine existsb fst snd]. rewrite H2. reflexivity.
Qed.
