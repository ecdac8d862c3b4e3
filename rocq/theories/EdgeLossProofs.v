(** The edge losses: value, metric properties, invariances. *)
From Coq Require Import Permutation.
From Verif Require Export EdgeLossModel EdgeLinear ReduceProofs IndexLemmas.
Open Scope Z_scope.

(** L lists the indices of shape s, each once. *)
Definition all_pixels (s : list Z) (L : list (list Z)) : Prop := NoDup L /\ forall i, In i L <-> valid s i.

Section A.
Variable F : ofield.
Add Field Fela : (f_field F).

Lemma fabs_pos (a : F) : fle f0 a -> fabs a = a.
Proof. unfold fabs, fle. now intros ->. Qed.
Lemma fabs_neg (a : F) : fle a f0 -> fabs a = fopp a.
Proof.
  intros H. unfold fabs. destruct (fleb f0 a) eqn:E; auto. assert (a = f0) by (apply (fle_antisym F); auto). subst. ring.
Qed.
Lemma fabs_cases (a : F) : fle f0 a /\ fabs a = a \/ fle a f0 /\ fabs a = fopp a.
Proof. destruct (fle_total F f0 a) as [H|H]; [left|right]; split; auto; [now apply fabs_pos|now apply fabs_neg]. Qed.
Lemma fle_0opp (a : F) : fle a f0 <-> fle f0 (fopp a).
Proof.
  split; intros H.
  - replace f0 with (fopp (@f0 F)) by ring. now apply fle_opp.
  - replace a with (fopp (fopp a)) by ring. replace f0 with (fopp (@f0 F)) by ring. now apply fle_opp.
Qed.
Lemma fabs_nonneg (a : F) : fle f0 (fabs a).
Proof. destruct (fabs_cases a) as [[H ->]|[H ->]]; auto. now apply fle_0opp. Qed.
Lemma fabs_opp (a : F) : fabs (fopp a) = fabs a.
Proof.
  destruct (fabs_cases a) as [[H ->]|[H ->]].
  - rewrite fabs_neg; [ring|]. apply fle_0opp. now replace (fopp (fopp a)) with a by ring.
  - apply fabs_pos. now apply fle_0opp.
Qed.
Lemma fabs_zero : fabs (@f0 F) = f0.
Proof. apply fabs_pos, fle_refl. Qed.
Lemma fabs_eq0 (a : F) : fabs a = f0 <-> a = f0.
Proof.
  split; [|intros ->; apply fabs_zero]. destruct (fabs_cases a) as [[_ ->]|[_ ->]]; auto. intros E.
  replace a with (fopp (fopp a)) by ring. rewrite E. ring.
Qed.
Lemma fabs_le (a : F) : fle a (fabs a) /\ fle (fopp a) (fabs a).
Proof.
  destruct (fabs_cases a) as [[H ->]|[H ->]]; split; try apply fle_refl.
  - eapply fle_trans; [|exact H]. apply fle_0opp. now replace (fopp (fopp a)) with a by ring.
  - eapply fle_trans; [exact H|]. now apply fle_0opp.
Qed.
Lemma fabs_add (a b : F) : fle (fabs (fadd a b)) (fadd (fabs a) (fabs b)).
Proof.
  destruct (fabs_cases (fadd a b)) as [[_ ->]|[_ ->]].
  - apply fle_add; apply fabs_le.
  - replace (fopp (fadd a b)) with (fadd (fopp a) (fopp b)) by ring. apply fle_add; apply fabs_le.
Qed.
Lemma fabs_sub_comm (a b : F) : fabs (fsub a b) = fabs (fsub b a).
Proof. rewrite <- fabs_opp. f_equal. ring. Qed.
Lemma fabs_triangle (a b c : F) : fle (fabs (fsub a c)) (fadd (fabs (fsub a b)) (fabs (fsub b c))).
Proof. replace (fsub a c) with (fadd (fsub a b) (fsub b c)) by ring. apply fabs_add. Qed.
Lemma fabs_mul (a b : F) : fabs (fmul a b) = fmul (fabs a) (fabs b).
Proof.
  destruct (fabs_cases a) as [[H ->]|[H ->]]; destruct (fabs_cases b) as [[K ->]|[K ->]].
  - now apply fabs_pos, fmul_nonneg.
  - transitivity (fabs (fopp (fmul a b))); [symmetry; apply fabs_opp|]. replace (fopp (fmul a b)) with (fmul a (fopp b)) by ring.
    apply fabs_pos, fmul_nonneg; auto. now apply fle_0opp.
  - transitivity (fabs (fopp (fmul a b))); [symmetry; apply fabs_opp|]. replace (fopp (fmul a b)) with (fmul (fopp a) b) by ring.
    apply fabs_pos, fmul_nonneg; auto. now apply fle_0opp.
  - replace (fmul a b) with (fmul (fopp a) (fopp b)) at 1 by ring. apply fabs_pos, fmul_nonneg; now apply fle_0opp.
Qed.
Lemma lsum_map_add {A} (f g : A -> F) l : lsum (map (fun a => fadd (f a) (g a)) l) = fadd (lsum (map f l)) (lsum (map g l)).
Proof. unfold lsum. induction l as [|a l IH]; cbn; [ring|]. rewrite IH. ring. Qed.
Lemma lsum_map_mul {A} c (f : A -> F) l : lsum (map (fun a => fmul c (f a)) l) = fmul c (lsum (map f l)).
Proof. unfold lsum. induction l as [|a l IH]; cbn; [ring|]. rewrite IH. ring. Qed.
Lemma lsum_map_le {A} (f g : A -> F) l : (forall a, In a l -> fle (f a) (g a)) -> fle (lsum (map f l)) (lsum (map g l)).
Proof.
  unfold lsum. induction l as [|a l IH]; intros H; cbn; [apply fle_refl|]. apply fle_add; [apply H; now left|apply IH; intros; apply H; now right].
Qed.
Lemma lsum_app (l l' : list F) : lsum (l ++ l') = fadd (lsum l) (lsum l').
Proof. unfold lsum. induction l as [|a l IH]; cbn; [ring|]. rewrite IH. ring. Qed.
End A.

(** The same position in the second half of the channels. *)
Definition shift (c : Z) (i : list Z) : list Z := upd 1 (nth 1 i 0 + c) i.
Lemma valid4 n c h w i : valid [n; c; h; w] i <-> exists a b u v, i = [a; b; u; v] /\ 0 <= a < n /\ 0 <= b < c /\ 0 <= u < h /\ 0 <= v < w.
Proof.
  split.
  - intros V. inv V. inv H3. inv H5. inv H6. inv H7. repeat eexists; lia.
  - intros (a & b & u & v & -> & ? & ? & ? & ?). repeat constructor; lia.
Qed.
Lemma valid2 n c i : valid [n; c] i <-> exists a b, i = [a; b] /\ 0 <= a < n /\ 0 <= b < c.
Proof.
  split.
  - intros V. inv V. inv H3. inv H5. repeat eexists; lia.
  - intros (a & b & -> & ? & ?). repeat constructor; lia.
Qed.
Lemma pixels_list s : all_pixels s (tindices s).
Proof. split; [apply NoDup_tindices|]. intros i. apply In_tindices. Qed.
Lemma double_pixels n c h w L : 0 <= c -> all_pixels [n; c; h; w] L -> all_pixels [n; c + c; h; w] (L ++ map (shift c) L).
Proof.
  intros Hc [N H]. split.
  - assert (D : forall l, NoDup l -> (forall i, In i l -> valid [n; c; h; w] i) -> NoDup (map (shift c) l)).
    { induction l as [|a l IH]; intros Nl Hl; [constructor|]. inv Nl. cbn. constructor; [|apply IH; auto; intros; apply Hl; now right].
      intros I. apply in_map_iff in I. destruct I as [b [E I]]. apply H2. replace a with b; auto.
      pose proof (Hl b (or_intror I)) as Vb. pose proof (Hl a (or_introl eq_refl)) as Va. apply valid4 in Vb. apply valid4 in Va.
      destruct Vb as (? & ? & ? & ? & -> & ? & ? & ? & ?). destruct Va as (? & ? & ? & ? & -> & ? & ? & ? & ?). unfold shift in E. cbn in E. inv E. repeat f_equal. lia. }
    assert (G : forall l l', NoDup l -> NoDup l' -> (forall i, In i l -> ~ In i l') -> NoDup (l ++ l' : list (list Z))).
    { induction l as [|a l IH]; intros l' N1 N2 D'; cbn; auto. inv N1. constructor; [|apply IH; auto; intros; apply D'; now right].
      intros I. apply in_app_iff in I. destruct I as [I|I]; [auto|]. apply (D' a); [now left|auto]. }
    apply G; auto; [apply D; auto; intros i; apply H|]. intros i Hi I. apply in_map_iff in I. destruct I as [b [E I]].
    apply H, valid4 in Hi. apply H, valid4 in I. destruct Hi as (? & ? & ? & ? & -> & ? & ? & ? & ?). destruct I as (? & ? & ? & ? & -> & ? & ? & ? & ?).
    unfold shift in E. cbn in E. inv E. lia.
  - intros i. rewrite in_app_iff, in_map_iff. split.
    + intros [I|[b [<- I]]]; apply H, valid4 in I; destruct I as (? & ? & ? & ? & -> & ? & ? & ? & ?); apply valid4; unfold shift; cbn; repeat eexists; lia.
    + intros V. apply valid4 in V. destruct V as (a & b & u & v & -> & ? & ? & ? & ?). destruct (Z_lt_ge_dec b c).
      * left. apply H, valid4. repeat eexists; lia.
      * right. exists [a; b - c; u; v]. split; [unfold shift; cbn; repeat f_equal; lia|]. apply H, valid4. repeat eexists; lia.
Qed.
Lemma pixels_block s L : all_pixels s L -> block_of s (seq 0 (length s)) [] L.
Proof.
  intros [N H]. split; auto. intros i. rewrite H. split; [|tauto]. intros V. split; auto.
  unfold outside. rewrite (valid_length _ _ V). destruct (filter _ _) as [|k l] eqn:E; auto.
  assert (I : In k (k :: l)) by now left. rewrite <- E in I. apply filter_In in I. destruct I as [I1 I2].
  apply (existsb_nat k) in I1. now rewrite I1 in I2.
Qed.

Section B.
Variable F : ofield.
Add Field Felb : (f_field F).
Notation T := (tensor F).
Variable trunc : F -> Z.

(** d2 and d3 are the components of x along the axes 2 and 3. *)
Definition edge_pair (fuel : nat) (junk : list Z -> F) (e : edge_filter F) (x d2 d3 : T) : Prop :=
  snd (component trunc fuel junk e x (AxInt 2) (AxSeq [2; 3])) = Ok d2 /\
  snd (component trunc fuel junk e x (AxInt 3) (AxSeq [2; 3])) = Ok d3 /\ shp d2 = shp x /\ shp d3 = shp x.

Lemma edge_tensor_like fuel junk (e e' : edge_filter F) (x : T) : elike F e e' -> coh F e ->
  snd (edge_tensor trunc fuel junk e' x) = snd (edge_tensor trunc fuel junk e x) /\ elike F e (fst (edge_tensor trunc fuel junk e x)).
Proof.
  intros L C. unfold edge_tensor. destruct (all_components_like F trunc fuel junk x (AxSeq [2; 3]) e e' L C) as [E1 E2].
  destruct (all_components trunc fuel junk e x _) as [e1 r]. destruct (all_components trunc fuel junk e' x _) as [e1' r']. cbn [fst snd] in *. subst. auto.
Qed.
Lemma edge_tensor_ok fuel junk ker smooth normalize pd shared (e : edge_filter F) (x d2 d3 : T) n c h w :
  edge_init (NItem ker) smooth normalize pd shared = Ok e -> shp x = [n; c; h; w] -> edge_pair fuel junk e x d2 d3 ->
  exists t, snd (edge_tensor trunc fuel junk e x) = Ok t /\ shp t = [n; c + c; h; w] /\
    forall a b u v, at_ t [a; b; u; v] = if b <? c then at_ d2 [a; b; u; v] else at_ d3 [a; b - c; u; v].
Proof.
  intros HI Sx [P2 [P3 [S2 S3]]]. unfold edge_tensor.
  pose proof (all_components_ok F trunc fuel junk ker smooth normalize pd shared e x (AxSeq [2; 3]) [2; 3]%nat (fun a => if Nat.eqb a 2 then d2 else d3) HI) as A.
  destruct (all_components trunc fuel junk e x _) as [e1 r]. cbn [fst snd] in *. rewrite A; clear A.
  - cbn [map bind Nat.eqb]. unfold tcat. unfold ndim. cbn [forallb]. rewrite S2, S3, Sx. cbn [length Nat.ltb Nat.leb]. unfold same_off. cbn [length Nat.eqb all2 upd andb].
    rewrite !Z.eqb_refl. cbn [andb]. eexists. split; [reflexivity|]. cbn [shp at_ map fold_right]. unfold dimlen. rewrite S2, S3, Sx. cbn [nth upd].
    split; [repeat f_equal; lia|]. intros a b u v. cbn [cat_at nth]. unfold dimlen. rewrite S2, Sx. reflexivity.
  - unfold ndim. rewrite Sx. reflexivity.
  - cbn. lia.
  - intros a [<-|[<-|[]]]; cbn [Nat.eqb]; auto.
Qed.
Lemma edge_loss_run score fuel junk ker smooth normalize pd shared (e : edge_filter F) (x y tx ty : T) :
  edge_init (NItem ker) smooth normalize pd shared = Ok e ->
  snd (edge_tensor trunc fuel junk e x) = Ok tx -> snd (edge_tensor trunc fuel junk e y) = Ok ty ->
  snd (edge_loss trunc score fuel junk e x y) = score tx ty.
Proof.
  intros HI Hx Hy. apply init_coh in HI. unfold edge_loss.
  destruct (edge_tensor_like fuel junk e e x (elike_refl F e) HI) as [_ L].
  destruct (edge_tensor trunc fuel junk e x) as [e1 r]. cbn [fst snd] in *. subst r.
  destruct (edge_tensor_like fuel junk e e1 y L HI) as [E1 _]. rewrite Hy in E1.
  destruct (edge_tensor trunc fuel junk e1 y) as [e2 r]. cbn [fst snd] in *. subst r. reflexivity.
Qed.
Lemma mean_all (t : T) : (forall k, In k (shp t) -> 0 < k) -> exists s, tmean t [] false = Ok s /\ shp s = [] /\
  forall L, all_pixels (shp t) L -> at_ s [] = fdiv (lsum (map (at_ t) L)) (fofZ (zprod (shp t))).
Proof.
  intros Hp. destruct (tmean_ok F t [] false) as [s [S1 [S2 S3]]]; try (intros a []); [constructor| |].
  { cbn [reduced]. intros a Ha. apply in_seq in Ha. apply Hp. apply nth_In. unfold ndim in Ha. lia. }
  exists s. split; auto. cbn [reduced] in *. split.
  - rewrite S2. unfold outside. destruct (filter _ _) as [|k l] eqn:E; auto.
    assert (I : In k (k :: l)) by now left. rewrite <- E in I. apply filter_In in I. destruct I as [I1 I2].
    unfold ndim in I2. apply (existsb_nat k) in I1. now rewrite I1 in I2.
  - intros L HL. rewrite (S3 [] L) by now apply pixels_block. do 2 f_equal. unfold red_count, ndim.
    f_equal. apply list_ext with (d := 0); [now rewrite map_length, seq_length|]. intros k Hk. rewrite map_length, seq_length in Hk.
    rewrite nth_indep with (d' := nth 0%nat (shp t) 0) by now rewrite map_length, seq_length.
    rewrite (map_nth (fun a => nth a (shp t) 0)). now rewrite seq_nth.
Qed.
(** Mean over an edge tensor. *)
Lemma mean4 (t : T) n c h w : shp t = [n; c + c; h; w] -> 0 < n -> 0 < c -> 0 < h -> 0 < w ->
  exists s, tmean t [] false = Ok s /\ shp s = [] /\
    forall L, all_pixels [n; c; h; w] L ->
      at_ s [] = fdiv (lsum (map (fun i => fadd (at_ t i) (at_ t (shift c i))) L)) (fofZ (2 * (n * c * h * w))).
Proof.
  intros St Hn Hc Hh Hw. destruct (mean_all t) as [s [S1 [S2 S3]]].
  { rewrite St. cbn. intros k H. intuition lia. }
  exists s. split; auto. split; auto. intros L HL. rewrite (S3 (L ++ map (shift c) L)) by (rewrite St; apply double_pixels; auto; lia).
  rewrite map_app, lsum_app, map_map, <- lsum_map_add. do 2 f_equal. rewrite St. unfold zprod. cbn [fold_right]. ring.
Qed.
End B.
