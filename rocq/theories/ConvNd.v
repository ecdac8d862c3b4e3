(** shapes/conv_like.py:33-35 [conv_nd]: conv_1d applied to NdSpec arguments. *)
From Verif Require Export NdLink OuterProofs PoolPropLemmas SsimProofs.
Open Scope Z_scope.

(** The items handed to conv_1d; a tuple item would make its arithmetic raise TypeError. *)
Definition conv_leaf (l : list (tree Z)) : res (tree Z) :=
  match l with
  | [Leaf i; Leaf k; Leaf s; Leaf d] => m <- conv_1d i k s d ;; Ok (Leaf m)
  | _ => Err TypeError
  end.
(** shapes/conv_like.py:33-35 *)
Definition conv_nd (in_size kernel_size stride dilation : tree Z) : res (ndspec Z) :=
  a <- ndspec_item in_size [] ;; b <- ndspec_item kernel_size [] ;; c <- ndspec_item stride [] ;; e <- ndspec_item dilation [] ;;
  nd_apply conv_leaf [a; b; c; e].

(** One number for all axes, or a flat list. *)
Definition arg_tree (s : nds Z) : tree Z := match s with NItem a => Leaf a | NList l => Node (map Leaf l) end.

Lemma arg_rep s : exists sp, ndspec_item (arg_tree s) [] = Ok sp /\ represents Leaf sp s.
Proof. destruct s as [a|l]; [apply scalar_item_rep|apply scalar_list_rep]. Qed.

Lemma conv_nd_sps i k s d : exists a b c e,
  conv_nd (arg_tree i) (arg_tree k) (arg_tree s) (arg_tree d) = nd_apply conv_leaf [a; b; c; e] /\
  represents Leaf a i /\ represents Leaf b k /\ represents Leaf c s /\ represents Leaf e d.
Proof.
  destruct (arg_rep i) as (a & Ea & Ra), (arg_rep k) as (b & Eb & Rb), (arg_rep s) as (c & Ec & Rc), (arg_rep d) as (e & Ee & Re).
  exists a, b, c, e. unfold conv_nd. rewrite Ea, Eb, Ec, Ee. cbn [bind]. auto.
Qed.

Lemma expand_shape {A} n (s : nds A) l : expand n s = Some l -> shape_of (nds_ishape s) = [Z.of_nat n] \/ shape_of (nds_ishape s) = [].
Proof.
  destruct s as [a|k]; cbn [expand nds_ishape shape_of]; [now right|]. destruct (Nat.eqb_spec (length k) n) as [<-|]; [|discriminate]. now left.
Qed.
Definition is_list {A} (s : nds A) : Prop := match s with NItem _ => False | NList _ => True end.
Lemma list_shape {A} n (s : nds A) l : expand n s = Some l -> is_list s -> shape_of (nds_ishape s) = [Z.of_nat n].
Proof.
  destruct s as [a|k]; cbn [expand nds_ishape shape_of is_list]; [tauto|]. destruct (Nat.eqb_spec (length k) n) as [<-|]; [|discriminate]. now intros.
Qed.

Section L.
Variables (n : nat) (i k s d : nds Z) (is ks ss ds : list Z).
Hypothesis Ei : expand n i = Some is.
Hypothesis Ek : expand n k = Some ks.
Hypothesis Es : expand n s = Some ss.
Hypothesis Ed : expand n d = Some ds.
Hypothesis Hl : is_list i \/ is_list k \/ is_list s \/ is_list d.

Lemma conv_nd_apply : exists args, conv_nd (arg_tree i) (arg_tree k) (arg_tree s) (arg_tree d) = nd_apply conv_leaf args /\
  Forall simple args /\ agrees (map nd_index_shape args) [Z.of_nat n] /\
  forall r, (r < n)%nat -> mapM (fun a => nd_get a (KInt (Z.of_nat r))) args =
    Ok [Leaf (nth r is 0); Leaf (nth r ks 0); Leaf (nth r ss 0); Leaf (nth r ds 0)].
Proof.
  destruct (conv_nd_sps i k s d) as (a & b & c & e & E & Ra & Rb & Rc & Re). exists [a; b; c; e]. split; [exact E|]. split; [|split].
  - repeat apply Forall_cons; try apply Forall_nil; eapply rep_simple; eauto.
  - cbn [map]. rewrite (rep_shape _ _ _ Ra), (rep_shape _ _ _ Rb), (rep_shape _ _ _ Rc), (rep_shape _ _ _ Re). split.
    + destruct Hl as [H|[H|[H|H]]]; [rewrite (list_shape _ _ _ Ei H)|rewrite (list_shape _ _ _ Ek H)|rewrite (list_shape _ _ _ Es H)|
        rewrite (list_shape _ _ _ Ed H)]; simpl; auto 6.
    + intros t [<-|[<-|[<-|[<-|[]]]]]; eapply expand_shape; eauto.
  - intros r Hr. cbn [mapM]. rewrite (rep_get _ _ _ _ Ra), (rep_get _ _ _ _ Rb), (rep_get _ _ _ _ Rc), (rep_get _ _ _ _ Re).
    rewrite (nds_get_expand n i is 0 r Ei Hr), (nds_get_expand n k ks 0 r Ek Hr), (nds_get_expand n s ss 0 r Es Hr), (nds_get_expand n d ds 0 r Ed Hr).
    reflexivity.
Qed.

Theorem conv_nd_value : (forall r, (r < n)%nat -> nth r ss 0 <> 0) ->
  exists sp, conv_nd (arg_tree i) (arg_tree k) (arg_tree s) (arg_tree d) = Ok sp /\ nd_index_shape sp = [Z.of_nat n] /\ nd_len sp = Ok (Z.of_nat n) /\
    forall r, (r < n)%nat -> nd_get sp (KInt (Z.of_nat r)) =
      Ok (Leaf ((nth r is 0 - nth r ds 0 * (nth r ks 0 - 1) - 1) / nth r ss 0 + 1)).
Proof.
  intros Hs. destruct conv_nd_apply as (args & -> & S' & G & M).
  destruct (apply_items_at conv_leaf args (Z.of_nat n)
    (fun r => Leaf ((nth (Z.to_nat r) is 0 - nth (Z.to_nat r) ds 0 * (nth (Z.to_nat r) ks 0 - 1) - 1) / nth (Z.to_nat r) ss 0 + 1)) S' G)
    as (sp & E1 & E2 & E3 & E4).
  - intros r items Hr Hm. assert (Hr' : (Z.to_nat r < n)%nat) by lia. specialize (M _ Hr'). rewrite Z2Nat.id in M by lia. rewrite M in Hm.
    injection Hm as <-. cbn [conv_leaf]. unfold conv_1d. destruct (Z.eqb_spec (nth (Z.to_nat r) ss 0) 0) as [Z0|_]; [now apply Hs in Z0|reflexivity].
  - exists sp. repeat split; auto. intros r Hr. rewrite E4 by lia. now rewrite Nat2Z.id.
Qed.

Theorem conv_nd_counts : (forall r, (r < n)%nat -> 1 <= nth r ss 0 /\ nth r ds 0 * (nth r ks 0 - 1) < nth r is 0) ->
  exists sp, conv_nd (arg_tree i) (arg_tree k) (arg_tree s) (arg_tree d) = Ok sp /\ nd_index_shape sp = [Z.of_nat n] /\
    forall r, (r < n)%nat -> exists m, nd_get sp (KInt (Z.of_nat r)) = Ok (Leaf m) /\
      forall j, 0 <= j -> (j * nth r ss 0 + nth r ds 0 * (nth r ks 0 - 1) < nth r is 0 <-> j < m).
Proof.
  intros H. destruct conv_nd_value as (sp & E1 & E2 & _ & E4); [intros r Hr; specialize (H r Hr); lia|].
  exists sp. split; [exact E1|]. split; [exact E2|]. intros r Hr. eexists. split; [now apply E4|]. destruct (H r Hr) as [H1 H2].
  destruct (conv_1d_counts (nth r is 0) (nth r ks 0) (nth r ss 0) (nth r ds 0) H1 H2) as (c & Ec & Q).
  unfold conv_1d in Ec. destruct (Z.eqb_spec (nth r ss 0) 0); [lia|]. injection Ec as <-. exact Q.
Qed.

Theorem conv_nd_stride0 : (exists r, (r < n)%nat /\ nth r ss 0 = 0) ->
  conv_nd (arg_tree i) (arg_tree k) (arg_tree s) (arg_tree d) = Err ZeroDivisionError.
Proof.
  intros (r & Hr & H0). destruct conv_nd_apply as (args & -> & S' & G & M). rewrite (apply_one_level conv_leaf args (Z.of_nat n) S' G).
  pose proof (mapM_cases (fun i0 => items <- mapM (fun a => nd_get a (KInt i0)) args ;; conv_leaf items) (zrange (Z.of_nat n))) as C.
  destruct (mapM _ (zrange (Z.of_nat n))) as [l|e]; cbn [bind].
  - exfalso. assert (Hin : In (Z.of_nat r) (zrange (Z.of_nat n))) by (apply In_zrange; lia).
    clear G S'. induction C as [|q y qs ys Hq C IH]; [destruct Hin|]. destruct Hin as [->|Hin]; [|auto].
    rewrite (M r Hr) in Hq. cbn [bind conv_leaf] in Hq. unfold conv_1d in Hq. rewrite H0, Z.eqb_refl in Hq. discriminate.
  - destruct C as (q & Hq & Eq). apply In_zrange in Hq. specialize (M (Z.to_nat q) ltac:(lia)). rewrite Z2Nat.id in M by lia.
    rewrite M in Eq. cbn [bind conv_leaf] in Eq. unfold conv_1d in Eq. destruct (_ =? 0) in Eq; cbn [bind] in Eq; congruence.
Qed.
End L.

(** Numbers only: the result is the single number of conv_1d. *)
Theorem conv_nd_item i k s d m : conv_1d i k s d = Ok m ->
  exists sp, conv_nd (Leaf i) (Leaf k) (Leaf s) (Leaf d) = Ok sp /\ nd_index_shape sp = [] /\ nd_data sp = Leaf m /\
    forall r, nd_get sp (KInt r) = Ok (Leaf m).
Proof.
  intros H. destruct (conv_nd_sps (NItem i) (NItem k) (NItem s) (NItem d)) as (a & b & c & e & E & Ra & Rb & Rc & Re). cbn [arg_tree] in E. rewrite E.
  destruct Ra as [Pa Da], Rb as [Pb Db], Rc as [Pc Dc], Re as [Pe De]. rewrite apply_items; [|discriminate|repeat constructor; auto].
  cbn [map]. rewrite Da, Db, Dc, De. cbn [conv_leaf]. rewrite H. cbn [bind]. eexists. split; [reflexivity|]. repeat split.
Qed.

(** Lists of different lengths. *)
Theorem conv_nd_lengths i k s d l l' : In (NList l) [i; k; s; d] -> In (NList l') [i; k; s; d] -> length l <> length l' ->
  conv_nd (arg_tree i) (arg_tree k) (arg_tree s) (arg_tree d) = Err ValueError.
Proof.
  intros H H' N. destruct (conv_nd_sps i k s d) as (a & b & c & e & -> & Ra & Rb & Rc & Re).
  unfold nd_apply. rewrite agg_shape_no; [reflexivity|]. cbn [map].
  rewrite (rep_shape _ _ _ Ra), (rep_shape _ _ _ Rb), (rep_shape _ _ _ Rc), (rep_shape _ _ _ Re).
  intros t [_ G]. change [shape_of (nds_ishape i); shape_of (nds_ishape k); shape_of (nds_ishape s); shape_of (nds_ishape d)]
    with (map (fun x : nds Z => shape_of (nds_ishape x)) [i; k; s; d]) in G.
  apply (in_map (fun x : nds Z => shape_of (nds_ishape x))) in H, H'. destruct (G _ H) as [Q|Q]; [|discriminate]. destruct (G _ H') as [Q'|Q']; [|discriminate].
  cbn in Q, Q'. rewrite <- Q' in Q. injection Q as Q. lia.
Qed.

(** The sizes a pooling module without padding returns: conv_nd of the image's sizes, the module's
    kernel_size and stride and dilation 1. *)
Theorem conv_nd_pool (F : ofield) fuel junk (m : pool F) x ax al kers sts : on_axes x ax al -> built (length al) kers sts None m ->
  (forall r, (r < length al)%nat -> nth r kers [] <> [] /\ klen (nth r kers []) <= nth (nth r al 0%nat) (shp x) 0) ->
  exists y sp, snd (sep_forward fuel junk m x ax) = Ok y /\
    conv_nd (Node (map (fun a => Leaf (nth a (shp x) 0)) al)) (arg_tree (pl_size m)) (arg_tree (pl_stride m)) (Leaf 1) = Ok sp /\
    nd_index_shape sp = [Z.of_nat (length al)] /\
    forall r, (r < length al)%nat -> nd_get sp (KInt (Z.of_nat r)) = Ok (Leaf (nth (nth r al 0%nat) (shp y) 0)).
Proof.
  intros OA B H. destruct (pool_valid_shape F fuel junk m x ax al kers sts OA B (fun r Hr => proj2 (H r Hr))) as (y & Y1 & _ & Y3 & _).
  destruct (built_par F _ _ _ _ _ B) as ((L1 & L2 & _ & P) & _ & E1 & E2 & _).
  assert (HS : forall r, (r < length al)%nat -> nth r sts 0 = nth r sts 1) by (intros r Hr; apply nth_indep; lia).
  destruct (conv_nd_value (length al) (NList (map (fun a => nth a (shp x) 0) al)) (pl_size m) (pl_stride m) (NItem 1)
    (map (fun a => nth a (shp x) 0) al) (map klen kers) sts (repeat 1 (length al))) as (sp & S1 & S2 & _ & S4); auto.
  - cbn [expand]. now rewrite map_length, Nat.eqb_refl.
  - now left.
  - intros r Hr. rewrite HS by auto. destruct (P r Hr) as (_ & _ & _ & P4). destruct (H r Hr) as [H1 _]. specialize (P4 H1). lia.
  - exists y, sp. split; [exact Y1|]. cbn [arg_tree] in S1. rewrite map_map in S1. split; [exact S1|]. split; [exact S2|].
    intros r Hr. rewrite S4 by auto. f_equal. f_equal. rewrite Y3 by (auto; apply H; auto). rewrite HS by auto.
    rewrite (nth_indep (map (fun a => nth a (shp x) 0) al) 0 ((fun a => nth a (shp x) 0) 0%nat)) by (rewrite map_length; auto).
    rewrite (map_nth (fun a => nth a (shp x) 0)). rewrite (nth_indep (map klen kers) 0 (klen ([] : list F))) by (rewrite map_length; lia).
    rewrite (map_nth klen). rewrite (nth_indep (repeat 1 (length al)) 0 1) by (now rewrite repeat_length). rewrite nth_repeat. f_equal. f_equal. lia.
Qed.
