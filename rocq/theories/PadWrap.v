(** smooth and linear_ramp padding of an axis named by a negative number (an int below -ndim): [view([-1] + [1] * (x.ndim - dim - 1))]
    makes a column with too many axes. *)
From Verif Require Export PadderMore.
Open Scope Z_scope.

(** ** Broadcasting of a column with superfluous axes *)
Lemma bshape_rev_ones d : forall r L, bshape_rev (repeat 1 (length d + r) ++ [L]) d = Some (d ++ repeat 1 r ++ [L]).
Proof.
  induction d as [|b d IH]; intros r L; cbn [length plus repeat app].
  - destruct (repeat 1 r ++ [L]); reflexivity.
  - cbn [bshape_rev]. rewrite IH. unfold bdim. destruct (Z.eqb_spec 1 b); [now subst|]. reflexivity.
Qed.
Lemma bshape_rev_prefix d : forall e, bshape_rev d (d ++ e) = Some (d ++ e).
Proof.
  induction d as [|b d IH]; intros e; cbn [app bshape_rev]; [reflexivity|]. rewrite IH. unfold bdim. now rewrite Z.eqb_refl.
Qed.
Lemma rev_repeat {A} (a : A) n : rev (repeat a n) = repeat a n.
Proof.
  induction n as [|n IH]; cbn [repeat rev]; auto. rewrite IH. clear IH. induction n as [|n IH]; cbn [repeat app]; auto. now rewrite IH.
Qed.
Lemma bshape_col L r D : bshape (L :: repeat 1 (length D + r)) D = Some (L :: repeat 1 r ++ D).
Proof.
  unfold bshape. cbn [rev]. rewrite rev_repeat, <- (rev_length D), bshape_rev_ones. rewrite !rev_app_distr, rev_involutive, rev_repeat. reflexivity.
Qed.
Lemma bshape_long L r D : bshape D (L :: repeat 1 r ++ D) = Some (L :: repeat 1 r ++ D).
Proof.
  unfold bshape. cbn [rev]. rewrite rev_app_distr, <- app_assoc, bshape_rev_prefix. rewrite !rev_app_distr, !rev_involutive. reflexivity.
Qed.
Lemma bidx_long_D {X} (L : X) (r : nat) D j l : valid D j -> bidx D (l :: repeat 0 r ++ j) = j.
Proof.
  intros V. unfold bidx. pose proof (valid_length _ _ V). cbn [length]. rewrite app_length, repeat_length.
  replace (S (r + length j) - length D)%nat with (S r) by lia. cbn [skipn]. rewrite skipn_app, repeat_length, Nat.sub_diag.
  rewrite skipn_all2 by (rewrite repeat_length; lia). cbn [skipn app]. rewrite <- (bidx_same D j V) at 2. unfold bidx. now rewrite H, Nat.sub_diag.
Qed.
Lemma map2_ones n : forall (j : list Z), length j = n -> map2 (fun m k => if m =? 1 then 0 else k) (repeat 1 n) j = repeat 0 n.
Proof. induction n as [|n IH]; intros [|k j] H; try discriminate; cbn [repeat map2]; auto. cbn in H. rewrite IH by lia. reflexivity. Qed.
Lemma drop_ones_long r D : drop_ones (S r) (1 :: repeat 1 r ++ D) = D.
Proof. cbn [drop_ones]. induction r as [|r IH]; cbn [repeat app drop_ones]; [now destruct D|]. exact IH. Qed.

Section W.
Variable F : ofield.
Add Field Fwrap : (f_field F).
Notation T := (tensor F).

Lemma tmap2_same (f : F -> F -> F) (u v : T) : shp u = shp v ->
  exists w, tmap2 f u v = Ok w /\ shp w = shp v /\ forall j, valid (shp v) j -> at_ w j = f (at_ u j) (at_ v j).
Proof.
  intros E. unfold tmap2. rewrite E. assert (B : bshape (shp v) (shp v) = Some (shp v)).
  { unfold bshape. pose proof (bshape_rev_prefix (rev (shp v)) []) as H. rewrite app_nil_r in H. rewrite H. now rewrite rev_involutive. }
  rewrite B. eexists. split; [reflexivity|]. split; [reflexivity|]. intros j V. cbn [at_]. now rewrite !bidx_same.
Qed.
(** [g u (f (column of t) v)] with superfluous axes. *)
Lemma long_column (f g : F -> F -> F) (t u v : T) D L r : shp t = [L] -> shp u = D -> shp v = D ->
  exists m w, tmap2 f (tview_col (length D + r) t) v = Ok m /\ tmap2 g u m = Ok w /\ shp m = L :: repeat 1 r ++ D /\ shp w = L :: repeat 1 r ++ D /\
    (L = 1 -> forall j, valid D j -> at_ m (repeat 0 (S r) ++ j) = f (at_ t [0]) (at_ v j) /\ at_ w (repeat 0 (S r) ++ j) = g (at_ u j) (f (at_ t [0]) (at_ v j))).
Proof.
  intros St Su Sv. unfold tmap2 at 1. cbn [tview_col shp]. rewrite St, Sv. cbn [nth]. rewrite bshape_col. eexists. eexists. split; [reflexivity|].
  split; [unfold tmap2; cbn [shp at_]; rewrite Su, bshape_long; reflexivity|]. split; [reflexivity|]. split; [reflexivity|]. intros -> j V. cbn [repeat app at_].
  assert (LL : bidx (1 :: repeat 1 r ++ D) (0 :: repeat 0 r ++ j) = 0 :: repeat 0 r ++ j).
  { apply bidx_same. constructor; [lia|]. apply Forall2_app; [|exact V]. clear. induction r; cbn [repeat]; constructor; auto. lia. }
  assert (LC : bidx (1 :: repeat 1 (length D + r)) (0 :: repeat 0 r ++ j) = 0 :: repeat 0 (length D + r)).
  { unfold bidx. pose proof (valid_length _ _ V). cbn [length]. rewrite app_length, !repeat_length. replace (S (r + length j) - S (length D + r))%nat with 0%nat by lia.
    cbn [skipn map2]. change (1 =? 1) with true. cbv iota. f_equal. apply map2_ones. rewrite app_length, repeat_length. lia. }
  rewrite LL, LC, !(bidx_long_D 1) by auto. split; reflexivity.
Qed.
Lemma long_prefix_one (w : T) D r : shp w = 1 :: repeat 1 r ++ D ->
  shp (unit_prefix true (length D) w) = D /\ forall j, at_ (unit_prefix true (length D) w) j = at_ w (repeat 0 (S r) ++ j).
Proof.
  intros E. unfold unit_prefix, ndim. rewrite E. cbn [length]. rewrite app_length, repeat_length. replace (S (r + length D) - length D)%nat with (S r) by lia.
  cbv zeta. rewrite drop_ones_long. cbn [shp at_]. split; auto. intros j. now replace (S (r + length D) - length D)%nat with (S r) by lia.
Qed.
Lemma long_prefix_many (w x : T) sl D L r : shp w = L :: repeat 1 r ++ D -> L <> 1 -> length sl = ndim x -> ndim x = length D ->
  tset x sl (unit_prefix true (length D) w) = Err RuntimeError.
Proof.
  intros E HL Hs Hx. assert (U : shp (unit_prefix true (length D) w) = L :: repeat 1 r ++ D).
  { unfold unit_prefix, ndim. rewrite E. cbn [length]. rewrite app_length, repeat_length. replace (S (r + length D) - length D)%nat with (S r) by lia.
    cbn [shp drop_ones]. destruct L as [|[q|q|]|q]; reflexivity || lia. }
  unfold tset. rewrite Hs. unfold ndim in *. rewrite Nat.eqb_refl, U. unfold expandable. rewrite map_length, map2_length_eq by congruence.
  cbn [length]. rewrite app_length, repeat_length. destruct (Nat.leb_spec (S (r + length D)) (length (shp x))); [lia|]. reflexivity.
Qed.

Section Fill.
Variables (x : T) (idx : list slice) (dim : nat) (head tail : Z).
Hypothesis P : pre F x idx dim head tail.
Notation sh := (shp x).
Notation N := (nth dim (shp x) 0).
Notation lens := (map r_len (map2 resolve (shp x) idx)).
Let n := tail - head.
Let D := upd dim 1 lens.

Lemma len_D : length D = ndim x.
Proof. unfold D. rewrite upd_length, map_length, map2_length_eq; auto. symmetry. apply P. Qed.
Lemma units_D : unit_axes true x dim = (length D + (ndim x - dim - 1))%nat.
Proof. unfold unit_axes. now rewrite len_D. Qed.

(** A value of one sample computed with the long column. *)
Lemma long_lrep (f g : F -> F -> F) (t u v : T) A B : shp t = [1] -> frep sh idx dim u 1 A -> frep sh idx dim v 1 B ->
  exists m w, tmap2 f (tview_col (unit_axes true x dim) t) v = Ok m /\ tmap2 g u m = Ok w /\
    lrep sh idx dim (unit_prefix true (ndim x) w) 1 (fun j k => g (A j k) (f (at_ t [0]) (B j k))).
Proof.
  intros St [A1 [A2 A3]] [B1 [B2 B3]]. fold D in A2, B2, A3, B3. rewrite units_D.
  destruct (long_column f g t u v D 1 (ndim x - dim - 1) St A2 B2) as (m & w & Hm & Hw & _ & Sw & V). exists m, w. split; auto. split; auto.
  rewrite <- len_D. destruct (long_prefix_one w D _ Sw) as [S1 S2]. apply frep_lrep. split.
  { intros j k c. now rewrite A1, B1. }
  split; [exact S1|]. intros i Vi. fold D in Vi. rewrite S2. rewrite (proj2 (V eq_refl i Vi)). rewrite A3, B3 by auto. reflexivity.
Qed.
Lemma long_lrep1 (f : F -> F -> F) (g : F -> F) (t v : T) B : shp t = [1] -> frep sh idx dim v 1 B ->
  exists m, tmap2 f (tview_col (unit_axes true x dim) t) v = Ok m /\
    lrep sh idx dim (unit_prefix true (ndim x) (tmap g m)) 1 (fun j k => g (f (at_ t [0]) (B j k))).
Proof.
  intros St [B1 [B2 B3]]. fold D in B2, B3. rewrite units_D.
  destruct (long_column f f t v v D 1 (ndim x - dim - 1) St B2 B2) as (m & w & Hm & _ & Sm & _ & V). exists m. split; auto.
  rewrite <- len_D. destruct (long_prefix_one (tmap g m) D (ndim x - dim - 1) Sm) as [S1 S2]. apply frep_lrep. split.
  { intros j k c. now rewrite B1. }
  split; [exact S1|]. intros i Vi. fold D in Vi. rewrite S2. cbn [tmap at_]. rewrite (proj1 (V eq_refl i Vi)). rewrite B3 by auto. reflexivity.
Qed.
(** With at least two samples the assignment fails. *)
Lemma long_fails (f g : F -> F -> F) (t u v y : T) sl A B L : shp t = [L] -> L <> 1 -> frep sh idx dim u 1 A -> frep sh idx dim v 1 B -> shp y = sh -> 
  exists m w, tmap2 f (tview_col (unit_axes true x dim) t) v = Ok m /\ tmap2 g u m = Ok w /\
    tset y (upd dim sl idx) (unit_prefix true (ndim x) w) = Err RuntimeError.
Proof.
  intros St HL [_ [A2 _]] [_ [B2 _]] Sy. fold D in A2, B2. rewrite units_D.
  destruct (long_column f g t u v D L (ndim x - dim - 1) St A2 B2) as (m & w & Hm & Hw & _ & Sw & _). exists m, w. split; auto. split; auto.
  rewrite <- len_D. pose proof (wfi_len _ _ _ (pre_W _ _ _ _ _ _ P)) as Li. eapply long_prefix_many; eauto; unfold ndim; rewrite ?upd_length, ?Sy; auto. now rewrite len_D.
Qed.
Lemma long_fails1 (f : F -> F -> F) (g : F -> F) (t v y : T) sl B L : shp t = [L] -> L <> 1 -> frep sh idx dim v 1 B -> shp y = sh ->
  exists m, tmap2 f (tview_col (unit_axes true x dim) t) v = Ok m /\
    tset y (upd dim sl idx) (unit_prefix true (ndim x) (tmap g m)) = Err RuntimeError.
Proof.
  intros St HL [_ [B2 _]] Sy. fold D in B2. rewrite units_D.
  destruct (long_column f f t v v D L (ndim x - dim - 1) St B2 B2) as (m & w & Hm & _ & Sm & _ & _). exists m. split; auto.
  rewrite <- len_D. pose proof (wfi_len _ _ _ (pre_W _ _ _ _ _ _ P)) as Li. eapply long_prefix_many; eauto; unfold ndim; rewrite ?upd_length, ?Sy; auto. now rewrite len_D.
Qed.
Lemma frep_map2_one (f : F -> F -> F) (u v : T) A B : frep sh idx dim u 1 A -> frep sh idx dim v 1 B ->
  exists w, tmap2 f u v = Ok w /\ frep sh idx dim w 1 (fun j k => f (A j k) (B j k)).
Proof.
  intros [A1 [A2 A3]] [B1 [B2 B3]]. destruct (tmap2_same f u v) as (w & Hw & Sw & Vw); [congruence|]. exists w. split; auto. split.
  { intros j k c. now rewrite A1, B1. }
  split; [congruence|]. intros i Vi. rewrite Vw by (now rewrite B2). now rewrite A3, B3.
Qed.
Lemma frep_map_one (f : F -> F) (u : T) A : frep sh idx dim u 1 A -> frep sh idx dim (tmap f u) 1 (fun j k => f (A j k)).
Proof.
  intros [A1 [A2 A3]]. split. { intros j k c. now rewrite A1. }
  split; [exact A2|]. intros i Vi. cbn [tmap at_]. now rewrite A3.
Qed.

(** *** smooth *)
Lemma smooth_neg_line : n = 1 -> smooth_1d true x idx dim = smooth_1d false x idx dim.
Proof.
  intros Hn. unfold smooth_1d. rewrite (head_tail_ok _ _ _ _ _ (pre_W _ _ _ _ _ _ P) (pre_idx _ _ _ _ _ _ P)). cbn [bind]. fold n. rewrite Hn. reflexivity.
Qed.
Lemma smooth_neg_before : 2 <= n -> 2 <= head -> smooth_1d true x idx dim = Err RuntimeError.
Proof.
  intros Hn Hh. pose proof P as [W Hidx Hhead Hht Htail]. unfold smooth_1d, modify_idx. rewrite (head_tail_ok _ _ _ _ _ W Hidx). cbn [bind]. fold n.
  destruct (Z.eqb_spec n 1); [lia|]. destruct (Z.ltb_spec 0 head); [|lia]. unfold n in *.
  destruct (tget_frep sh idx dim W x (srng head (head + 1)) head 1 eq_refl) as [u [Hu Fu]]; [rewrite resolve_srng by lia; f_equal; lia|lia|].
  destruct (tget_frep sh idx dim W x (srng (head + 1) (head + 2)) (head + 1) 1 eq_refl) as [v [Hv Fv]]; [rewrite resolve_srng by lia; f_equal; lia|lia|].
  rewrite Hu. cbn [bind]. rewrite Hv. cbn [bind]. destruct (frep_map2_one fsub v u _ _ Fv Fu) as [d [Hd Fd]]. rewrite Hd. cbn [bind].
  destruct (long_fails fmul fsub (tarange head 0 (-1)) u d x (sto head) _ _ head (tarange_down F x dim head tail head Hhead) ltac:(lia) Fu Fd eq_refl) as (m & w & Hm & Hw & Ht).
  rewrite Hm. cbn [bind]. rewrite Hw. cbn [bind]. rewrite Ht. reflexivity.
Qed.
Lemma smooth_neg_agree : 2 <= n -> head <= 1 -> let E := Eof F ext_smooth x dim head n in dinv dim E /\
  exists y, (if 0 <? head then
            a <- tget x (upd dim (srng head (head + 1)) idx) ;;
            b <- tget x (upd dim (srng (head + 1) (head + 2)) idx) ;;
            d <- tmap2 fsub b a ;;
            m <- tmap2 fmul (tview_col (unit_axes true x dim) (tarange head 0 (-1))) d ;;
            v <- tmap2 fsub a m ;;
            tset x (upd dim (sto head) idx) (unit_prefix true (ndim x) v)
          else Ok x) = Ok y /\ agree sh idx dim x E 0 tail y.
Proof.
  intros Hn Hh E. pose proof P as [W Hidx Hhead Hht Htail].
  pose proof (Eof_dinv F ext_smooth x dim head n (smooth_extl F) ltac:(lia)) as HE. fold E in HE. split; auto.
  pose proof (agree_start F _ _ _ _ _ _ P (smooth_core F)) as A. fold n in A. fold E in A.
  destruct (Z.ltb_spec 0 head).
  - assert (H1 : head = 1) by lia. unfold n in *.
    destruct (agree_get sh idx dim W x E head tail x (srng head (head + 1)) head 1 HE A) as [u [Hu Fu]]; try lia. { rewrite resolve_srng by lia. f_equal; lia. }
    destruct (agree_get sh idx dim W x E head tail x (srng (head + 1) (head + 2)) (head + 1) 1 HE A) as [v [Hv Fv]]; try lia. { rewrite resolve_srng by lia. f_equal; lia. }
    rewrite Hu. cbn [bind]. rewrite Hv. cbn [bind]. destruct (frep_map2_one fsub v u _ _ Fv Fu) as [d [Hd Fd]]. rewrite Hd. cbn [bind].
    assert (S1 : shp (@tarange F head 0 (-1)) = [1]) by (rewrite (tarange_down F x dim head tail) by lia; now rewrite H1).
    destruct (long_lrep fmul fsub (tarange head 0 (-1)) u d _ _ S1 Fu Fd) as (m & w & Hm & Hw & Lw).
    rewrite Hm. cbn [bind]. rewrite Hw. cbn [bind].
    destruct (agree_set_before sh idx dim W x E head tail x (sto head) (unit_prefix true (ndim x) w) 0
      (fun j k => fsub (E j (head + k)) (fmul (at_ (tarange head 0 (-1)) [0]) (fsub (E j (head + 1 + k)) (E j (head + k))))) HE A) as [y [Hy Ay]]; try lia.
    { rewrite resolve_sto by lia. f_equal; lia. }
    { rewrite H1 in *. exact Lw. }
    { intros j k Hj Hk. unfold E, Eof, ext_smooth. destruct (Z.eqb_spec (tail - head) 1); [lia|].
      rewrite !(fun t => proj2 (Z.ltb_ge t 0)) by lia. cbn [tarange at_ nth].
      destruct (Z.ltb_spec (0 + k - head) 0); [|lia].
      rewrite !(fun t m => proj2 (Z.ltb_lt t m)) by lia.
      replace (head + k - head) with 0 by lia. replace (head + 1 + k - head) with 1 by lia.
      replace (0 + k - head) with (- (head + 0 * -1)) by lia. rewrite fofZ_opp. ring. }
    exists y. auto.
  - exists x. split; auto. now replace 0 with head by lia.
Qed.
Lemma smooth_neg_after : 2 <= n -> head <= 1 -> 2 <= N - tail -> smooth_1d true x idx dim = Err RuntimeError.
Proof.
  intros Hn Hh Ha. pose proof P as [W Hidx Hhead Hht Htail]. destruct (smooth_neg_agree Hn Hh) as [HE [y [Hy Ay]]]. cbv zeta in *.
  set (E := Eof F ext_smooth x dim head n) in *.
  unfold smooth_1d, modify_idx. rewrite (head_tail_ok _ _ _ _ _ W Hidx). cbn [bind]. fold n. destruct (Z.eqb_spec n 1); [lia|]. cbv zeta. rewrite Hy. cbn [bind].
  pose proof (proj1 Ay) as Sy. unfold dimlen. rewrite Sy. destruct (Z.ltb_spec tail N); [|lia]. unfold n in *.
  destruct (tget_frep sh idx dim W y (srng (tail - 1) tail) (tail - 1) 1 Sy) as [u [Hu Fu]]; [rewrite resolve_srng by lia; f_equal; lia|lia|].
  destruct (tget_frep sh idx dim W y (srng (tail - 2) (tail - 1)) (tail - 2) 1 Sy) as [v [Hv Fv]]; [rewrite resolve_srng by lia; f_equal; lia|lia|].
  rewrite Hu. cbn [bind]. rewrite Hv. cbn [bind]. destruct (frep_map2_one fsub u v _ _ Fu Fv) as [d [Hd Fd]]. rewrite Hd. cbn [bind].
  destruct (long_fails fmul fadd (tarange 1 (N - tail + 1) 1) u d y (sfrom tail) _ _ (N - tail) (tarange_up F x dim head tail (N - tail) ltac:(lia)) ltac:(lia) Fu Fd Sy) as (m & w & Hm & Hw & Ht).
  rewrite Hm. cbn [bind]. rewrite Hw. cbn [bind]. unfold ndim in *. rewrite Sy. rewrite Ht. reflexivity.
Qed.
Lemma smooth_neg_pads : 2 <= n -> head <= 1 -> N - tail <= 1 -> pads F (smooth_1d true) x idx dim head tail ext_smooth.
Proof.
  intros Hn Hh Ha. pose proof P as [W Hidx Hhead Hht Htail]. destruct (smooth_neg_agree Hn Hh) as [HE [y [Hy Ay]]]. cbv zeta in *.
  unfold pads, smooth_1d, modify_idx. rewrite (head_tail_ok _ _ _ _ _ W Hidx). cbn [bind]. fold n. destruct (Z.eqb_spec n 1); [lia|]. cbv zeta. rewrite Hy. cbn [bind].
  set (E := Eof F ext_smooth x dim head n) in *.
  pose proof (proj1 Ay) as Sy. unfold dimlen. rewrite Sy. unfold n in *. destruct (Z.ltb_spec tail N).
  - assert (H1 : N = tail + 1) by lia.
    destruct (agree_get sh idx dim W x E 0 tail y (srng (tail - 1) tail) (tail - 1) 1 HE Ay) as [u [Hu Fu]]; try lia. { rewrite resolve_srng by lia. f_equal; lia. }
    destruct (agree_get sh idx dim W x E 0 tail y (srng (tail - 2) (tail - 1)) (tail - 2) 1 HE Ay) as [v [Hv Fv]]; try lia. { rewrite resolve_srng by lia. f_equal; lia. }
    rewrite Hu. cbn [bind]. rewrite Hv. cbn [bind]. destruct (frep_map2_one fsub u v _ _ Fu Fv) as [d [Hd Fd]]. rewrite Hd. cbn [bind].
    assert (S1 : shp (@tarange F 1 (N - tail + 1) 1) = [1]) by (rewrite (tarange_up F x dim head tail) by lia; f_equal; lia).
    destruct (long_lrep fmul fadd (tarange 1 (N - tail + 1) 1) u d _ _ S1 Fu Fd) as (m & w & Hm & Hw & Lw).
    rewrite Hm. cbn [bind]. rewrite Hw. cbn [bind]. replace (ndim y) with (ndim x) by (unfold ndim; now rewrite Sy).
    destruct (agree_set_after sh idx dim W x E 0 tail y (sfrom tail) (unit_prefix true (ndim x) w) N
      (fun j k => fadd (E j (tail - 1 + k)) (fmul (at_ (tarange 1 (N - tail + 1) 1) [0]) (fsub (E j (tail - 1 + k)) (E j (tail - 2 + k))))) HE Ay) as [z [Hz Az]]; try lia.
    { rewrite resolve_sfrom by lia. f_equal; lia. }
    { replace (N - tail) with 1 by lia. exact Lw. }
    { intros j k Hj Hk. unfold E, Eof, ext_smooth. destruct (Z.eqb_spec (tail - head) 1); [lia|].
      cbn [tarange at_ nth].
      rewrite !(fun t => proj2 (Z.ltb_ge t 0)) by lia.
      destruct (Z.ltb_spec (tail + k - head) (tail - head)); [lia|].
      rewrite !(fun t m => proj2 (Z.ltb_lt t m)) by lia.
      replace (tail - 1 + k - head) with (tail - head - 1) by lia.
      replace (tail - 2 + k - head) with (tail - head - 2) by lia.
      replace (tail + k - head - (tail - head - 1)) with (1 + 0 * 1) by lia. ring. }
    exists z. auto.
  - exists y. split; auto. now replace N with tail by lia.
Qed.

(** *** linear_ramp *)
Variables b a : F.
Lemma ramp_neg_before : 2 <= head -> linear_ramp_1d true x idx dim b a = Err RuntimeError.
Proof.
  intros Hh. pose proof P as [W Hidx Hhead Hht Htail]. unfold linear_ramp_1d, modify_idx. rewrite (head_tail_ok _ _ _ _ _ W Hidx). cbn [bind].
  destruct (Z.ltb_spec 0 head); [|lia]. destruct (linspace_init F x dim head tail f0 f1 head ltac:(lia)) as [l [Hl [Sl _]]]. rewrite Hl. cbn [bind].
  destruct (tget_frep sh idx dim W x (srng head (head + 1)) head 1 eq_refl) as [u [Hu Fu]]; [rewrite resolve_srng by lia; f_equal; lia|lia|].
  rewrite Hu. cbn [bind]. apply (frep_map_one (fun e => fsub e b)) in Fu.
  destruct (long_fails1 fmul (fadd b) l _ x (sto head) _ head Sl ltac:(lia) Fu eq_refl) as (m & Hm & Ht). rewrite Hm. cbn [bind]. rewrite Ht. reflexivity.
Qed.
Lemma ramp_neg_agree : head <= 1 -> let E := Eof F (ext_linear_ramp head (N - tail) b a) x dim head n in dinv dim E /\
  exists y, (if 0 <? head then
          dist <- (v <- tget (tlinspace f0 f1 (head + 1)) [mkS None (Some (-1)) 1] ;; Ok (tview_col (unit_axes true x dim) v)) ;;
          a <- tget x (upd dim (srng head (head + 1)) idx) ;;
          m <- tmap2 fmul dist (tmap (fun e => fsub e b) a) ;;
          tset x (upd dim (sto head) idx) (unit_prefix true (ndim x) (tmap (fadd b) m))
        else Ok x) = Ok y /\ agree sh idx dim x E 0 tail y.
Proof.
  intros Hh E. pose proof P as [W Hidx Hhead Hht Htail].
  pose proof (Eof_dinv F (ext_linear_ramp head (N - tail) b a) x dim head n (linear_ramp_extl F _ _ _ _) ltac:(unfold n; lia)) as HE. fold E in HE. split; auto.
  pose proof (agree_start F _ _ _ _ _ _ P (linear_ramp_core F head (N - tail) b a)) as A. fold n in A. fold E in A.
  destruct (Z.ltb_spec 0 head).
  - assert (H1 : head = 1) by lia. destruct (linspace_init F x dim head tail f0 f1 head ltac:(lia)) as [l [Hl [Sl Al]]]. rewrite Hl. cbn [bind].
    destruct (agree_get sh idx dim W x E head tail x (srng head (head + 1)) head 1 HE A) as [u [Hu Fu]]; try lia. { rewrite resolve_srng by lia. f_equal; lia. }
    rewrite Hu. cbn [bind]. apply (frep_map_one (fun e => fsub e b)) in Fu.
    assert (S1 : shp l = [1]) by (now rewrite Sl, H1).
    destruct (long_lrep1 fmul (fadd b) l _ _ S1 Fu) as (m & Hm & Lm). rewrite Hm. cbn [bind].
    destruct (agree_set_before sh idx dim W x E head tail x (sto head) (unit_prefix true (ndim x) (tmap (fadd b) m)) 0
      (fun j k => fadd b (fmul (at_ l [0]) (fsub (E j (head + k)) b))) HE A) as [y [Hy Ay]]; try lia.
    { rewrite resolve_sto by lia. f_equal; lia. }
    { rewrite H1 in *. exact Lm. }
    { intros j k Hj Hk. rewrite Al by lia. unfold E, Eof, ext_linear_ramp, n.
      destruct (Z.ltb_spec (head + k - head) 0); [lia|].
      destruct (Z.ltb_spec (head + k - head) (tail - head)); [|lia].
      destruct (Z.ltb_spec (0 + k - head) 0); [|lia].
      replace (head + k - head) with 0 by lia. replace (- (0 + k - head)) with (head - 0) by lia. rewrite fofZ_sub.
      field. apply fofZ_neq0. lia. }
    exists y. auto.
  - exists x. split; auto. now replace 0 with head by lia.
Qed.
Lemma ramp_neg_after : head <= 1 -> 2 <= N - tail -> linear_ramp_1d true x idx dim b a = Err RuntimeError.
Proof.
  intros Hh Ha. pose proof P as [W Hidx Hhead Hht Htail]. destruct (ramp_neg_agree Hh) as [HE [y [Hy Ay]]]. cbv zeta in *.
  unfold linear_ramp_1d, modify_idx. rewrite (head_tail_ok _ _ _ _ _ W Hidx). cbn [bind]. cbv zeta. rewrite Hy. cbn [bind].
  pose proof (proj1 Ay) as Sy. unfold dimlen. rewrite Sy. destruct (Z.ltb_spec tail N); [|lia].
  destruct (linspace_tail F x dim head tail f1 f0 (N - tail) ltac:(lia)) as [l [Hl [Sl _]]]. rewrite Hl. cbn [bind].
  destruct (tget_frep sh idx dim W y (srng (tail - 1) tail) (tail - 1) 1 Sy) as [u [Hu Fu]]; [rewrite resolve_srng by lia; f_equal; lia|lia|].
  rewrite Hu. cbn [bind]. apply (frep_map_one (fun e => fsub a e)) in Fu.
  destruct (long_fails1 fmul (fun e => fsub a e) l _ y (sfrom tail) _ (N - tail) Sl ltac:(lia) Fu Sy) as (m & Hm & Ht).
  replace (ndim y) with (ndim x) by (unfold ndim; now rewrite Sy). rewrite Hm. cbn [bind]. rewrite Ht. reflexivity.
Qed.
Lemma ramp_neg_pads : head <= 1 -> N - tail <= 1 ->
  pads F (fun x idx dim => linear_ramp_1d true x idx dim b a) x idx dim head tail (ext_linear_ramp head (N - tail) b a).
Proof.
  intros Hh Ha. pose proof P as [W Hidx Hhead Hht Htail]. destruct (ramp_neg_agree Hh) as [HE [y [Hy Ay]]]. cbv zeta in *.
  unfold pads, linear_ramp_1d, modify_idx. rewrite (head_tail_ok _ _ _ _ _ W Hidx). cbn [bind]. cbv zeta. rewrite Hy. cbn [bind]. fold n.
  set (E := Eof F (ext_linear_ramp head (N - tail) b a) x dim head n) in *.
  pose proof (proj1 Ay) as Sy. unfold dimlen. rewrite Sy. destruct (Z.ltb_spec tail N).
  - assert (H1 : N = tail + 1) by lia. destruct (linspace_tail F x dim head tail f1 f0 (N - tail) ltac:(lia)) as [l [Hl [Sl Al]]]. rewrite Hl. cbn [bind].
    destruct (agree_get sh idx dim W x E 0 tail y (srng (tail - 1) tail) (tail - 1) 1 HE Ay) as [u [Hu Fu]]; try lia. { rewrite resolve_srng by lia. f_equal; lia. }
    rewrite Hu. cbn [bind]. apply (frep_map_one (fun e => fsub a e)) in Fu.
    assert (S1 : shp l = [1]) by (rewrite Sl; f_equal; lia).
    destruct (long_lrep1 fmul (fun e => fsub a e) l _ _ S1 Fu) as (m & Hm & Lm).
    replace (ndim y) with (ndim x) by (unfold ndim; now rewrite Sy). rewrite Hm. cbn [bind].
    destruct (agree_set_after sh idx dim W x E 0 tail y (sfrom tail) (unit_prefix true (ndim x) (tmap (fun e => fsub a e) m)) N
      (fun j k => fsub a (fmul (at_ l [0]) (fsub a (E j (tail - 1 + k))))) HE Ay) as [z [Hz Az]]; try lia.
    { rewrite resolve_sfrom by lia. f_equal; lia. }
    { replace (N - tail) with 1 by lia. exact Lm. }
    { intros j k Hj Hk. rewrite Al by lia. unfold E, Eof, ext_linear_ramp, n.
      destruct (Z.ltb_spec (tail - 1 + k - head) 0); [lia|].
      destruct (Z.ltb_spec (tail - 1 + k - head) (tail - head)); [|lia].
      destruct (Z.ltb_spec (tail + k - head) 0); [lia|].
      destruct (Z.ltb_spec (tail + k - head) (tail - head)); [lia|].
      replace (tail - 1 + k - head) with (tail - head - 1) by lia.
      replace (tail + k - head - (tail - head - 1)) with (1 + 0) by lia.
      field. apply fofZ_neq0. lia. }
    exists z. auto.
  - exists y. split; auto. now replace N with tail by lia.
Qed.
End Fill.
End W.
