(** Theorems about the edge losses. *)
From Verif Require Export EdgeLossProofs.
Open Scope Z_scope.

(** x is predicted, y true, both of shape (n, c, h, w), none empty, with components p2, p3 and t2, t3. *)
Record loss_input {F : ofield} (trunc : F -> Z) (fuel : nat) (junk : list Z -> F) (e : edge_filter F) (x y p2 p3 t2 t3 : tensor F) (n c h w : Z) : Prop := {
  li_x : shp x = [n; c; h; w];
  li_y : shp y = [n; c; h; w];
  li_pos : 0 < n /\ 0 < c /\ 0 < h /\ 0 < w;
  li_pred : edge_pair F trunc fuel junk e x p2 p3;
  li_true : edge_pair F trunc fuel junk e y t2 t3 }.
(** Mean of |d| over the pixels P of the plane j. *)
Definition plane_mean {F : ofield} (P : list (list Z)) (h w : Z) (d : tensor F) (j : list Z) : F :=
  fdiv (lsum (map (fun q => fabs (at_ d (j ++ q))) P)) (fofZ (h * w)).

Section C.
Variable F : ofield.
Add Field Felc : (f_field F).
Notation T := (tensor F).
Variable trunc : F -> Z.
Variables (fuel : nat) (junk : list Z -> F).
Variables (ker : list F) (smooth : nds (list F)) (normalize : bool) (pd : option (padder F)) (shared : bool) (e : edge_filter F).
Hypothesis HI : edge_init (NItem ker) smooth normalize pd shared = Ok e.

(** An elementwise score g pred true, averaged. *)
Lemma pointwise_value (score : T -> T -> res T) (g : F -> F -> F) (x y p2 p3 t2 t3 : T) n c h w :
  loss_input trunc fuel junk e x y p2 p3 t2 t3 n c h w ->
  (forall ep et : T, shp ep = [n; c + c; h; w] -> shp et = shp ep -> (forall i, valid [n; c; h; w] i -> at_ et i = at_ t2 i /\ at_ et (shift c i) = at_ t3 i) ->
     exists q, shp q = shp ep /\ (forall i, valid (shp ep) i -> at_ q i = g (at_ ep i) (at_ et i)) /\ score ep et = tmean q [] false) ->
  exists s, snd (edge_loss trunc score fuel junk e x y) = Ok s /\ shp s = [] /\
    forall L, all_pixels [n; c; h; w] L ->
      at_ s [] = fdiv (lsum (map (fun i => fadd (g (at_ p2 i) (at_ t2 i)) (g (at_ p3 i) (at_ t3 i))) L)) (fofZ (2 * (n * c * h * w))).
Proof.
  intros [Sx Sy [Hn [Hc [Hh Hw]]] EP ET] Hs.
  destruct (edge_tensor_ok F trunc fuel junk ker smooth normalize pd shared e x p2 p3 n c h w HI Sx EP) as [tx [X1 [X2 X3]]].
  destruct (edge_tensor_ok F trunc fuel junk ker smooth normalize pd shared e y t2 t3 n c h w HI Sy ET) as [ty [Y1 [Y2 Y3]]].
  rewrite (edge_loss_run F trunc score fuel junk ker smooth normalize pd shared e x y tx ty HI X1 Y1).
  assert (Q : forall (t d2 d3 : T), (forall a b u v, at_ t [a; b; u; v] = if b <? c then at_ d2 [a; b; u; v] else at_ d3 [a; b - c; u; v]) ->
     forall i, valid [n; c; h; w] i -> at_ t i = at_ d2 i /\ at_ t (shift c i) = at_ d3 i).
  { intros t d2 d3 H i V. apply valid4 in V. destruct V as (a & b & u & v & -> & ? & Hb & ? & ?). unfold shift. cbn [nth upd]. rewrite !H.
    destruct (Z.ltb_spec b c); [|lia]. destruct (Z.ltb_spec (b + c) c); [lia|]. split; auto. do 3 f_equal. lia. }
  destruct (Hs tx ty X2) as [q [Q1 [Q2 Q3]]]; [congruence|apply Q; auto|]. rewrite Q3.
  destruct (mean4 F q n c h w) as [s [S1 [S2 S3]]]; auto; [congruence|].
  exists s. split; auto. split; auto. intros L HL. rewrite (S3 L HL). f_equal. apply lsum_ext. intros i Hi. apply HL in Hi.
  destruct (Q tx p2 p3 X3 i Hi) as [A1 A2]. destruct (Q ty t2 t3 Y3 i Hi) as [B1 B2]. rewrite <- A1, <- A2, <- B1, <- B2.
  assert (V1 : valid (shp tx) i /\ valid (shp tx) (shift c i)).
  { rewrite X2. apply valid4 in Hi. destruct Hi as (a & b & u & v & -> & ? & ? & ? & ?). unfold shift. cbn [nth upd]. split; apply valid4; repeat eexists; lia. }
  destruct V1 as [V1 V2]. now rewrite !Q2.
Qed.

(** GaussianEdgeLoss *)
Theorem l1_value (x y p2 p3 t2 t3 : T) n c h w : loss_input trunc fuel junk e x y p2 p3 t2 t3 n c h w ->
  exists s, snd (edge_loss trunc score_l1 fuel junk e x y) = Ok s /\ shp s = [] /\
    forall L, all_pixels [n; c; h; w] L ->
      at_ s [] = fdiv (lsum (map (fun i => fadd (fabs (fsub (at_ p2 i) (at_ t2 i))) (fabs (fsub (at_ p3 i) (at_ t3 i)))) L)) (fofZ (2 * (n * c * h * w))).
Proof.
  intros H. apply (pointwise_value score_l1 (fun a b => fabs (fsub a b)) x y p2 p3 t2 t3 n c h w H).
  intros ep et S1 S2 _. destruct (tmap2_same fsub ep et) as [d [D1 [D2 D3]]]; [congruence|].
  exists (tmap fabs d). cbn [tmap shp at_]. split; auto. split; [intros i V; now rewrite D3|]. unfold score_l1. now rewrite D1.
Qed.
(** WeightedMul *)
Theorem mul_value (x y p2 p3 t2 t3 : T) n c h w : loss_input trunc fuel junk e x y p2 p3 t2 t3 n c h w ->
  exists s, snd (edge_loss trunc score_mul fuel junk e x y) = Ok s /\ shp s = [] /\
    forall L, all_pixels [n; c; h; w] L ->
      at_ s [] = fdiv (lsum (map (fun i => fadd (fmul (fabs (fsub (at_ t2 i) (at_ p2 i))) (at_ t2 i)) (fmul (fabs (fsub (at_ t3 i) (at_ p3 i))) (at_ t3 i))) L)) (fofZ (2 * (n * c * h * w))).
Proof.
  intros H. apply (pointwise_value score_mul (fun a b => fmul (fabs (fsub b a)) b) x y p2 p3 t2 t3 n c h w H).
  intros ep et S1 S2 _. destruct (tmap2_same fsub et ep) as [d [D1 [D2 D3]]]; [congruence|].
  destruct (tmap2_same fmul (tmap fabs d) et) as [q [Q1 [Q2 Q3]]]; [cbn; congruence|].
  exists q. split; [cbn in Q2; congruence|]. split.
  - intros i V. rewrite Q3 by (cbn [tmap shp]; congruence). cbn [tmap at_]. now rewrite D3 by congruence.
  - unfold score_mul. rewrite D1. cbn [bind]. now rewrite Q1.
Qed.
Lemma is_zero_iff (v : F) : is_zero v = true <-> v = f0.
Proof.
  unfold is_zero. rewrite andb_true_iff. split; [intros [A B]; now apply fle_antisym|]. intros ->. split; apply (fle_refl F).
Qed.
(** WeightedDiv, when no true edge is zero. *)
Theorem div_value (x y p2 p3 t2 t3 : T) n c h w : loss_input trunc fuel junk e x y p2 p3 t2 t3 n c h w ->
  (forall i, valid (shp y) i -> at_ t2 i <> f0 /\ at_ t3 i <> f0) ->
  exists s, snd (edge_loss trunc score_div fuel junk e x y) = Ok s /\ shp s = [] /\
    forall L, all_pixels [n; c; h; w] L ->
      at_ s [] = fdiv (lsum (map (fun i => fadd (fdiv (fabs (fsub (at_ t2 i) (at_ p2 i))) (at_ t2 i)) (fdiv (fabs (fsub (at_ t3 i) (at_ p3 i))) (at_ t3 i))) L)) (fofZ (2 * (n * c * h * w))).
Proof.
  intros H NZ. apply (pointwise_value score_div (fun a b => fdiv (fabs (fsub b a)) b) x y p2 p3 t2 t3 n c h w H).
  intros ep et S1 S2 Hv. destruct (tmap2_same fsub et ep) as [d [D1 [D2 D3]]]; [congruence|].
  destruct (tmap2_same fdiv (tmap fabs d) et) as [q [Q1 [Q2 Q3]]]; [cbn; congruence|].
  exists q. split; [cbn in Q2; congruence|]. split.
  - intros i V. rewrite Q3 by (cbn [tmap shp]; congruence). cbn [tmap at_]. now rewrite D3 by congruence.
  - unfold score_div, tdiv. rewrite D1. cbn [bind]. rewrite Q1. cbn [bind].
    replace (tany (tmap is_zero et)) with false; [reflexivity|]. symmetry. apply not_true_is_false. intros A. unfold tany in A.
    apply existsb_exists in A. destruct A as [i [I Z0]]. apply In_tindices in I. cbn [tmap shp at_] in *. apply is_zero_iff in Z0.
    destruct H as [_ Sy _ _ _]. rewrite Sy in NZ. rewrite S2, S1 in I. apply valid4 in I. destruct I as (a & b & u & v & -> & Ha & Hb & Hu & Hw).
    destruct (Z_lt_ge_dec b c).
    + assert (V : valid [n; c; h; w] [a; b; u; v]) by (apply valid4; repeat eexists; lia). destruct (Hv _ V) as [E _]. destruct (NZ _ V). congruence.
    + assert (V : valid [n; c; h; w] [a; b - c; u; v]) by (apply valid4; repeat eexists; lia). destruct (Hv _ V) as [_ E]. destruct (NZ _ V) as [_ N].
      apply N. rewrite <- E. unfold shift. cbn [nth upd]. replace (b - c + c) with b by lia. auto.
Qed.
Theorem div_zero (x y p2 p3 t2 t3 : T) n c h w i : loss_input trunc fuel junk e x y p2 p3 t2 t3 n c h w ->
  valid (shp y) i -> at_ t2 i = f0 \/ at_ t3 i = f0 ->
  snd (edge_loss trunc score_div fuel junk e x y) = Err ZeroDivisionError.
Proof.
  intros [Sx Sy [Hn [Hc [Hh Hw]]] EP ET] V Z0.
  destruct (edge_tensor_ok F trunc fuel junk ker smooth normalize pd shared e x p2 p3 n c h w HI Sx EP) as [tx [X1 [X2 X3]]].
  destruct (edge_tensor_ok F trunc fuel junk ker smooth normalize pd shared e y t2 t3 n c h w HI Sy ET) as [ty [Y1 [Y2 Y3]]].
  rewrite (edge_loss_run F trunc score_div fuel junk ker smooth normalize pd shared e x y tx ty HI X1 Y1).
  unfold score_div, tdiv. destruct (tmap2_same fsub ty tx) as [d [D1 [D2 D3]]]; [congruence|]. rewrite D1. cbn [bind].
  destruct (tmap2_same fdiv (tmap fabs d) ty) as [q [Q1 [Q2 Q3]]]; [cbn; congruence|]. rewrite Q1. cbn [bind].
  replace (tany (tmap is_zero ty)) with true; [reflexivity|]. symmetry. unfold tany. apply existsb_exists.
  rewrite Sy in V. apply valid4 in V. destruct V as (a & b & u & v & -> & ? & ? & ? & ?). cbn [tmap shp at_].
  destruct Z0 as [Z0|Z0].
  - exists [a; b; u; v]. split; [apply In_tindices; rewrite Y2; apply valid4; repeat eexists; lia|]. apply is_zero_iff. rewrite Y3.
    destruct (Z.ltb_spec b c); [auto|lia].
  - exists [a; b + c; u; v]. split; [apply In_tindices; rewrite Y2; apply valid4; repeat eexists; lia|]. apply is_zero_iff. rewrite Y3.
    destruct (Z.ltb_spec (b + c) c); [lia|]. now replace (b + c - c) with b by lia.
Qed.

(** WeightedSum *)
Lemma plane_block n c h w P a b : all_pixels [h; w] P -> 0 <= a < n -> 0 <= b < c ->
  block_of [n; c; h; w] [2; 3]%nat [a; b] (map (app [a; b]) P).
Proof.
  intros [N H] Ha Hb. split.
  - apply FinFun.Injective_map_NoDup; auto. intros i j E. cbn in E. now inv E.
  - intros i. rewrite in_map_iff. split.
    + intros [q [<- I]]. apply H, valid2 in I. destruct I as (u & v & -> & ? & ?). split; [apply valid4; repeat eexists; lia|]. reflexivity.
    + intros [V O]. apply valid4 in V. destruct V as (a' & b' & u & v & -> & ? & ? & ? & ?). cbv in O. inv O.
      exists [u; v]. split; auto. apply H, valid2. repeat eexists; lia.
Qed.
Lemma plane_ok (t : T) n c h w : shp t = [n; c; h; w] -> 0 < n -> 0 < c -> 0 < h -> 0 < w ->
  exists m, tmean (tmap fabs t) [2; 3] false = Ok m /\ shp m = [n; c] /\
    forall a b P, 0 <= a < n -> 0 <= b < c -> all_pixels [h; w] P -> at_ m [a; b] = plane_mean P h w t [a; b].
Proof.
  intros St Hn Hc Hh Hw. destruct (tmean_ok F (tmap fabs t) [2; 3]%nat false) as [m [M1 [M2 M3]]].
  - unfold ndim. cbn [tmap shp]. rewrite St. intros a [<-|[<-|[]]]; cbn; lia.
  - repeat constructor; cbn; intuition lia.
  - cbn [reduced tmap shp]. rewrite St. intros a [<-|[<-|[]]]; cbn; lia.
  - exists m. split; [exact M1|]. cbn [reduced tmap shp at_ ndim] in *. rewrite St in *. split; [exact M2|].
    intros a b P Ha Hb HP. rewrite (M3 [a; b] _ (plane_block n c h w P a b HP Ha Hb)). unfold plane_mean. rewrite map_map. f_equal.
    unfold red_count. cbn [tmap shp]. rewrite St. unfold zprod. cbn [map nth fold_right]. f_equal. ring.
Qed.
Lemma plane_pixels c h w (t d2 d3 : T) P a b : all_pixels [h; w] P ->
  (forall a b u v, at_ t [a; b; u; v] = if b <? c then at_ d2 [a; b; u; v] else at_ d3 [a; b - c; u; v]) ->
  plane_mean P h w t [a; b] = if b <? c then plane_mean P h w d2 [a; b] else plane_mean P h w d3 [a; b - c].
Proof.
  intros [_ H] E. unfold plane_mean. destruct (b <? c) eqn:B; f_equal; apply lsum_ext; intros q Hq; apply H, valid2 in Hq;
  destruct Hq as (u & v & -> & _ & _); cbn [app]; rewrite E, B; reflexivity.
Qed.
Lemma double_pixels2 n c L : 0 <= c -> all_pixels [n; c] L -> all_pixels [n; c + c] (L ++ map (shift c) L).
Proof.
  intros Hc [N H]. split.
  - assert (D : forall l, NoDup l -> (forall i, In i l -> valid [n; c] i) -> NoDup (map (shift c) l)).
    { induction l as [|a l IH]; intros Nl Hl; [constructor|]. inv Nl. cbn. constructor; [|apply IH; auto; intros; apply Hl; now right].
      intros I. apply in_map_iff in I. destruct I as [b [E I]]. apply H2. replace a with b; auto.
      pose proof (Hl b (or_intror I)) as Vb. pose proof (Hl a (or_introl eq_refl)) as Va. apply valid2 in Vb. apply valid2 in Va.
      destruct Vb as (? & ? & -> & ? & ?). destruct Va as (? & ? & -> & ? & ?). unfold shift in E. cbn in E. inv E. repeat f_equal. lia. }
    assert (G : forall l l', NoDup l -> NoDup l' -> (forall i, In i l -> ~ In i l') -> NoDup (l ++ l' : list (list Z))).
    { induction l as [|a l IH]; intros l' N1 N2 D'; cbn; auto. inv N1. constructor; [|apply IH; auto; intros; apply D'; now right].
      intros I. apply in_app_iff in I. destruct I as [I|I]; [auto|]. apply (D' a); [now left|auto]. }
    apply G; auto; [apply D; auto; intros i; apply H|]. intros i Hi I. apply in_map_iff in I. destruct I as [b [E I]].
    apply H, valid2 in Hi. apply H, valid2 in I. destruct Hi as (? & ? & -> & ? & ?). destruct I as (? & ? & -> & ? & ?).
    unfold shift in E. cbn in E. inv E. lia.
  - intros i. rewrite in_app_iff, in_map_iff. split.
    + intros [I|[b [<- I]]]; apply H, valid2 in I; destruct I as (? & ? & -> & ? & ?); apply valid2; unfold shift; cbn; repeat eexists; lia.
    + intros V. apply valid2 in V. destruct V as (a & b & -> & ? & ?). destruct (Z_lt_ge_dec b c).
      * left. apply H, valid2. repeat eexists; lia.
      * right. exists [a; b - c]. split; [unfold shift; cbn; repeat f_equal; lia|]. apply H, valid2. repeat eexists; lia.
Qed.
Theorem sum_value (x y p2 p3 t2 t3 : T) n c h w : loss_input trunc fuel junk e x y p2 p3 t2 t3 n c h w ->
  exists s, snd (edge_loss trunc score_sum fuel junk e x y) = Ok s /\ shp s = [] /\
    forall L P, all_pixels [n; c] L -> all_pixels [h; w] P ->
      at_ s [] = fdiv (lsum (map (fun j => fadd (fabs (fsub (plane_mean P h w t2 j) (plane_mean P h w p2 j))) (fabs (fsub (plane_mean P h w t3 j) (plane_mean P h w p3 j)))) L)) (fofZ (2 * (n * c))).
Proof.
  intros [Sx Sy [Hn [Hc [Hh Hw]]] EP ET].
  destruct (edge_tensor_ok F trunc fuel junk ker smooth normalize pd shared e x p2 p3 n c h w HI Sx EP) as [tx [X1 [X2 X3]]].
  destruct (edge_tensor_ok F trunc fuel junk ker smooth normalize pd shared e y t2 t3 n c h w HI Sy ET) as [ty [Y1 [Y2 Y3]]].
  rewrite (edge_loss_run F trunc score_sum fuel junk ker smooth normalize pd shared e x y tx ty HI X1 Y1).
  unfold score_sum. destruct (plane_ok ty n (c + c) h w) as [mt [T1 [T2 T3]]]; auto; try lia.
  destruct (plane_ok tx n (c + c) h w) as [mp [M1 [M2 M3]]]; auto; try lia.
  rewrite T1. cbn [bind]. rewrite M1. cbn [bind]. destruct (tmap2_same fsub mt mp) as [d [D1 [D2 D3]]]; [congruence|]. rewrite D1. cbn [bind].
  destruct (mean_all F (tmap fabs d)) as [s [S1 [S2 S3]]]. { cbn [tmap shp]. rewrite D2, T2. cbn. intros k H. intuition lia. }
  exists s. split; auto. split; auto. intros L P HL HP. cbn [tmap shp] in S3. rewrite D2, T2 in S3.
  rewrite (S3 (L ++ map (shift c) L)) by (apply double_pixels2; auto; lia).
  rewrite map_app, lsum_app, map_map, <- lsum_map_add. f_equal.
  - apply lsum_ext. intros i Hi. apply HL in Hi. apply valid2 in Hi. destruct Hi as (a & b & -> & Ha & Hb). unfold shift. cbn [nth upd tmap at_].
    rewrite !D3 by (rewrite T2; apply valid2; repeat eexists; lia). rewrite !(T3 _ _ P) by (auto; lia). rewrite !(M3 _ _ P) by (auto; lia).
    rewrite !(plane_pixels c h w ty t2 t3) by auto. rewrite !(plane_pixels c h w tx p2 p3) by auto.
    destruct (Z.ltb_spec b c); [|lia]. destruct (Z.ltb_spec (b + c) c); [lia|]. now replace (b + c - c) with b by lia.
  - unfold zprod. cbn [fold_right]. f_equal. ring.
Qed.
End C.
