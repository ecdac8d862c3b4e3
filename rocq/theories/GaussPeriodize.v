(** GaussianGrad, LaplacianOfGaussian and UnsharpMask with periodize padding (C131). *)
From Coq Require Import Reals.
From Verif Require Export PeriodizeMag GaussEdge SharpenProofs LaplacePeriodize.
Open Scope Z_scope.

(** ** GaussianGrad and LaplacianOfGaussian *)
Theorem gauss_periodize fuel junk fuel' junk' ks sigma n p p' shared shared' (e e' : edge_filter RF) (x x' : tensor RF) ax ax' al eps pw :
  2 <= ks -> sigma <> 0%R -> 0 <= n ->
  gg_init (NItem ks) (NItem sigma) None None true n (Some p) shared = Ok e -> gg_init (NItem ks) (NItem sigma) None None true n (Some p') shared' = Ok e' ->
  edge_image (F := RF) fuel p MPeriodize x ax al (ks + 1) -> edge_image (F := RF) fuel' p' MCircular x' ax' al ks -> (2 <= length al)%nat ->
  evened (F := RF) al x x' ->
  exists y y', snd (magnitude (F := RF) Rtrunc fuel junk e x ax eps pw) = Ok y /\ snd (magnitude (F := RF) Rtrunc fuel' junk' e' x' ax' eps pw) = Ok y' /\
    teq y y' /\ shp y' = shp x'.
Proof.
  intros Hk Hs Hn HI HI' EI EI' Hl Ev. destruct (gg_ok ks sigma n ltac:(lia) Hs Hn) as [k0 [kn [E0 [En [L0 [Ln _]]]]]].
  rewrite (gg_init_edge _ _ _ _ _ _ _ E0 En) in HI. rewrite (gg_init_edge _ _ _ _ _ _ _ E0 En) in HI'.
  apply (magnitude_as_circular RF Rtrunc fuel junk fuel' junk' kn (NItem k0) (fun c => repeat k0 (length (without c al))) true p p' shared shared' e e' x x' ax ax' al ks); auto.
  - change (2 <= @klen RF kn <= ks). rewrite Ln. lia.
  - intros c u _ Hu. apply repeat_spec in Hu. subst u. rewrite L0. lia.
Qed.

Theorem log_periodize fuel junk fuel' junk' ks sigma p p' shared shared' (e e' : edge_filter RF) (x x' : tensor RF) ax ax' al :
  2 <= ks -> sigma <> 0%R ->
  log_init (NItem ks) (NItem sigma) (Some p) shared = Ok e -> log_init (NItem ks) (NItem sigma) (Some p') shared' = Ok e' ->
  edge_image (F := RF) fuel p MPeriodize x ax al (ks + 1) -> edge_image (F := RF) fuel' p' MCircular x' ax' al ks -> (2 <= length al)%nat ->
  evened (F := RF) al x x' ->
  exists y y', snd (log_forward fuel junk e x ax) = Ok y /\ snd (log_forward fuel' junk' e' x' ax') = Ok y' /\ teq y y' /\ shp y' = shp x'.
Proof. intros. eapply gauss_periodize with (n := 2); eauto. lia. Qed.

(** ** Broadcasting an image to its evened shape *)
Lemma bshape_rev_expand s t : length s = length t -> erev s t = true -> bshape_rev s t = Some t.
Proof.
  revert t. induction s as [|a s IH]; intros [|b t] L E; try discriminate; [reflexivity|]. cbn in *. apply andb_true_iff in E as [E1 E2].
  rewrite IH by (auto; lia). apply orb_true_iff in E1. rewrite !Z.eqb_eq in E1. unfold bdim. destruct (Z.eqb_spec a b); [subst; reflexivity|].
  destruct (Z.eqb_spec a 1); [reflexivity|lia].
Qed.
Lemma bshape_expand s t : length s = length t -> expandable s t = true -> bshape s t = Some t.
Proof.
  intros L E. rewrite expandable_rev in E. unfold bshape. rewrite bshape_rev_expand by (rewrite ?rev_length; auto). now rewrite rev_involutive.
Qed.
Lemma bshape_rev_dims s t u : length s = length t -> bshape_rev s t = Some u -> forall d, (d < length s)%nat -> bdim (nth d s 0) (nth d t 0) <> None.
Proof.
  revert t u. induction s as [|a s IH]; intros [|b t] u L E d Hd; try discriminate; cbn in *; [lia|].
  destruct (bdim a b) eqn:D; [|discriminate]. destruct (bshape_rev s t) eqn:R; [|discriminate]. destruct d; [congruence|]. apply (IH t l); auto; lia.
Qed.
Lemma bshape_clash s t d : length s = length t -> (d < length s)%nat -> bdim (nth d s 0) (nth d t 0) = None -> bshape s t = None.
Proof.
  intros L Hd E. unfold bshape. destruct (bshape_rev (rev s) (rev t)) eqn:R; auto. exfalso.
  assert (L2 : length (rev s) = length (rev t)) by (rewrite !rev_length; auto).
  apply (bshape_rev_dims (rev s) (rev t) l L2 R (length s - S d)); [rewrite rev_length; lia|].
  rewrite !rev_nth by lia. replace (length s - S (length s - S d))%nat with d by lia. replace (length t - S (length s - S d))%nat with d by lia. exact E.
Qed.

Section UP.
Variable F : ofield.
Add Field Fup : (f_field F).
Notation T := (tensor F).

Lemma tmap2_expand {B C} (f : F -> B -> C) (t : T) (u : tensor B) : length (shp t) = length (shp u) -> expandable (shp t) (shp u) = true ->
  exists w, tmap2 f t u = Ok w /\ shp w = shp u /\ forall i, valid (shp u) i -> at_ w i = f (at_ t (bidx (shp t) i)) (at_ u i).
Proof.
  intros L E. unfold tmap2. rewrite bshape_expand by auto. eexists. split; [reflexivity|]. split; [reflexivity|]. intros i Vi. cbn [at_]. now rewrite (bidx_same (shp u)).
Qed.
Lemma evened_bidx A (x x' : T) : evened A x x' -> (forall d, (d < ndim x)%nat -> nth d (shp x) 0 = nth d (shp x') 0 \/ nth d (shp x) 0 = 1) ->
  forall i, valid (shp x') i -> at_ x (bidx (shp x) i) = at_ x' i.
Proof.
  intros [N1 [N2 N3]] E i Vi. rewrite N3 by auto. f_equal. pose proof (valid_length _ _ Vi) as L. unfold ndim in *. unfold bidx. rewrite L, N1, Nat.sub_diag. cbn [skipn].
  apply list_ext with (d := 0); [now rewrite !map2_length|]. intros d Hd. rewrite map2_length in Hd.
  rewrite !nth_map2 with (da := 0) (db := 0) by lia. assert (B : 0 <= nth d i 0 < nth d (shp x') 0) by (apply valid_nth; auto; lia).
  destruct (E d ltac:(lia)) as [G|G]; [rewrite <- G in B|]; destruct (Z.eqb_spec (nth d (shp x) 0) 1); lia.
Qed.

(** ** UnsharpMask: fails when an evened axis has grown from 3 or more; otherwise sharpens the evened image. *)
Theorem unsharp_periodize fuel junk fuel' junk' (blur m : pool F) a t (u u' : unsharp F) (x x' : T) ax ax' al kers p p' m' blur' A :
  to_filter blur (Some p) = Ok m -> unsharp_init blur BSep a t (Some p) = Ok u ->
  to_filter blur' (Some p') = Ok m' -> unsharp_init blur' BSep a t (Some p') = Ok u' ->
  check_axes (Z.of_nat (ndim x)) ax = Ok (map Z.of_nat al) -> check_axes (Z.of_nat (ndim x')) ax' = Ok (map Z.of_nat al) ->
  built (length al) kers (repeat 1 (length al)) (Some p) m -> built (length al) kers (repeat 1 (length al)) (Some p') m' ->
  same_call F fuel p x (AxSeq (map Z.of_nat al)) al (repeat MPeriodize (length al)) kers (repeat 1 (length al)) ->
  same_call F fuel' p' x' (AxSeq (map Z.of_nat al)) al (repeat MCircular (length al)) kers (repeat 1 (length al)) ->
  (forall a, In a A -> In a al) -> (forall r, (r < length al)%nat -> (In (nth r al 0%nat) A <-> 2 <= klen (nth r kers []))) ->
  evened A x x' ->
  ((forall c, In c A -> Z.even (nth c (shp x) 0) = true \/ nth c (shp x) 0 = 1) ->
     exists y y', snd (unsharp_forward fuel junk u x ax) = Ok y /\ snd (unsharp_forward fuel' junk' u' x' ax') = Ok y' /\ teq y y' /\ shp y' = shp x') /\
  ((exists c, In c A /\ Z.odd (nth c (shp x) 0) = true /\ nth c (shp x) 0 <> 1) -> snd (unsharp_forward fuel junk u x ax) = Err RuntimeError).
Proof.
  intros Hf Hi Hf' Hi' Hax Hax' B B' SC SC' A1 A2 Ev.
  destruct (filter_as_circular F fuel junk fuel' junk' m m' x x' _ _ al kers p p' A B B' SC SC' A1 A2 Ev) as [b [b' [Y [Y' [[Sb Vb] Sb']]]]].
  unfold unsharp_init in Hi, Hi'. rewrite Hf in Hi. rewrite Hf' in Hi'. injection Hi as <-. injection Hi' as <-.
  unfold unsharp_forward. rewrite Hax, Hax'. cbn [um_kind um_blur um_amount um_threshold blur_forward].
  destruct (sep_forward fuel junk m x (AxSeq (map Z.of_nat al))) as [m1 r1]. destruct (sep_forward fuel' junk' m' x' (AxSeq (map Z.of_nat al))) as [m2 r2].
  cbn [snd] in *. subst r1 r2. cbn [bind].
  pose proof Ev as [N1 [N2 N3]]. pose proof (sc_axes F _ _ _ _ _ _ _ _ SC) as [_ In1 _].
  assert (Lb : length (shp x) = length (shp b)) by (unfold ndim in *; rewrite Sb, Sb'; auto).
  split.
  - intros G.
    assert (E : forall d, (d < ndim x)%nat -> nth d (shp x) 0 = nth d (shp x') 0 \/ nth d (shp x) 0 = 1).
    { intros d Hd. rewrite N2 by auto. destruct (memb d A) eqn:M; [|lia]. apply memb_in in M. destruct (G d M) as [H|H]; [|auto].
      rewrite Zmod_even, H. lia. }
    assert (Ex : expandable (shp x) (shp b) = true) by (apply expandable_iff; auto; intros d Hd; rewrite Sb, Sb'; auto).
    pose proof (evened_bidx A x x' Ev E) as Eq.
    destruct (tmap2_expand fsub x b Lb Ex) as [w [W1 [W2 W3]]]. rewrite W1. cbn [bind].
    destruct (tmap2_same fsub x' b' (eq_sym Sb')) as [w' [W1' [W2' W3']]]. rewrite W1'. cbn [bind].
    set (d := if fleb t f0 then w else _). set (d' := if fleb t f0 then w' else _).
    assert (D : shp d = shp x' /\ shp d' = shp x' /\ forall i, valid (shp x') i -> at_ d i = at_ d' i).
    { assert (Q : forall i, valid (shp x') i -> at_ w i = at_ w' i) by (intros i Vi; rewrite W3, W3', Eq, Vb by congruence; reflexivity).
      unfold d, d'. destruct (fleb t f0); cbn [tmap shp at_]; (split; [congruence|]); (split; [congruence|]); intros i Vi; rewrite Q by auto; reflexivity. }
    destruct D as [D1 [D2 D3]].
    destruct (tmap2_expand fadd x (tmap (fmul a) d)) as [y [Y1 [Y2 Y3]]]; [cbn [tmap shp]; congruence|cbn [tmap shp]; rewrite D1, <- Sb', <- Sb; exact Ex|].
    destruct (tmap2_same fadd x' (tmap (fmul a) d')) as [y' [Y1' [Y2' Y3']]]; [cbn [tmap shp]; congruence|].
    exists y, y'. split; [exact Y1|]. split; [exact Y1'|]. cbn [tmap shp] in *. split; [|exact Y2']. split; [congruence|]. intros i Vi.
    assert (Vi' : valid (shp x') i) by congruence. rewrite Y3, Y3', Eq by congruence. cbn [tmap at_]. now rewrite D3.
  - intros [c [Hc [Od Ne]]]. pose proof (In1 c (A1 c Hc)) as Hlt.
    assert (C : nth c (shp b) 0 = nth c (shp x) 0 + 1).
    { rewrite Sb, Sb', N2 by auto. rewrite (proj2 (memb_in c A) Hc). rewrite Zmod_odd, Od. reflexivity. }
    pose proof (sc_pos1 F _ _ _ _ _ _ _ _ SC c (A1 c Hc)).
    unfold tmap2 at 1. rewrite (bshape_clash _ _ c); auto. rewrite C. unfold bdim.
    destruct (Z.eqb_spec (nth c (shp x) 0) (nth c (shp x) 0 + 1)); [lia|]. destruct (Z.eqb_spec (nth c (shp x) 0) 1); [lia|].
    destruct (Z.eqb_spec (nth c (shp x) 0 + 1) 1); [lia|]. reflexivity.
Qed.
End UP.
