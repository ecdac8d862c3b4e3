(** How last_step_demosaic ends for every number of channels of the mosaic and of the interpolation. *)
From Coq Require Import Ascii String.
From Verif Require Export CfaPropLemmas.
Import List. Import ListNotations.
Local Notation length := List.length.
Open Scope list_scope.
Open Scope Z_scope.

Lemma tsetx_ell_fails {A} (x v : tensor A) pre s l R :
  shp x = pre ++ s -> nonneg pre -> length l = length s -> resolve_all s l = Ok R -> expandable (shp v) (pre ++ rlens R) = false ->
  tsetx x (ell (ndim x) l) v = Err RuntimeError.
Proof.
  intros Hs Hp Hl HR Hv. unfold tsetx, ndim. rewrite Hs, ell_app, resolve_all_full, HR by auto. simpl. now rewrite rlens_full, Hv.
Qed.
Lemma expandable_mid pre (a b : Z) s : a <> b -> a <> 1 -> expandable (pre ++ a :: s) (pre ++ b :: s) = false.
Proof.
  intros H1 H2. unfold expandable. rewrite !app_length. cbn [length]. rewrite Nat.leb_refl, Nat.sub_diag. cbn [andb skipn].
  induction pre as [|p pre IH]; cbn [app all2].
  - destruct (Z.eqb_spec a b); [congruence|]. destruct (Z.eqb_spec a 1); [congruence|reflexivity].
  - rewrite IH. apply andb_false_r.
Qed.

Section Channels.
Context {F : ofield}.
Notation T := (tensor F).
Variables (pre : list Z) (m n : Z).
Hypothesis Hpre : nonneg pre.
Hypothesis Hm : 0 <= m.
Hypothesis Hn : 0 <= n.
Variables (s sa : string).
Hypothesis Hsa : In sa patterns.
Hypothesis Hv : case_variant s sa.

Lemma has_channel_not (y : T) C k : shp y = pre ++ [C; 2 * m; 2 * n] -> C <= k -> 0 <= k -> has_channel y k = Err IndexError.
Proof.
  intros S Hk H0. unfold has_channel. replace (pyidx (shp y) (-3)) with (Ok C).
  - cbn [bind]. replace ((0 <=? k) && (k <? C)) with false; auto. symmetry. apply andb_false_intro2, Z.ltb_ge. lia.
  - rewrite S. unfold pyidx. rewrite app_length. cbn [length]. rewrite Nat2Z.inj_add. change (Z.of_nat 3) with 3. change (-3 <? 0) with true. cbv iota. replace ((0 <=? _) && _) with true.
    + rewrite nth_error_app2 by lia. replace (_ - _)%nat with O by lia. reflexivity.
    + symmetry. apply andb_true_intro. split; [apply Z.leb_le|apply Z.ltb_lt]; lia.
Qed.

Theorem last_step_ends junk (x y : T) Cx Cy : 0 <= Cx -> 0 <= Cy -> shp x = pre ++ [Cx; 2 * m; 2 * n] -> shp y = pre ++ [Cy; 2 * m; 2 * n] ->
  (Cx <> 1 -> last_step_demosaic junk x y s = Err RuntimeError) /\
  (Cx = 1 -> Cy < 2 -> last_step_demosaic junk x y s = Err IndexError) /\
  (Cx = 1 -> 2 <= Cy -> exists z, last_step_demosaic junk x y s = Ok z /\ shp z = pre ++ [3; 2 * m; 2 * n] /\
    forall p ch i j, valid pre p -> 0 <= ch < 3 -> 0 <= i < 2 * m -> 0 <= j < 2 * n ->
      at_ z (p ++ [ch; i; j]) =
        let kc := chan sa (2 * (i mod 2) + j mod 2) in
        if ch =? kc then at_ x (p ++ [0; i; j]) else at_ y (p ++ [if ch <? kc then ch else ch - 1; i; j])).
Proof.
  intros HX HY Sx Sy. split; [|split].
  3:{ intros -> H. eapply last_step_spec; eauto. }
  1,2: unfold last_step_demosaic; rewrite (check_sensor_alignment_ok s sa Hsa Hv); cbn [bind];
    destruct (beg_index_spec sa Hsa) as (f & Ef & Hf1 & _); rewrite Ef; cbn [bind];
    assert (AS : assertb (all2 Z.eqb (butlast 3 (shp x)) (butlast 3 (shp y)) && all2 Z.eqb (lastn 2 (shp x)) (lastn 2 (shp y))) = Ok tt)
      by (rewrite Sx, Sy, !butlast3, !lastn2, !all2_refl; reflexivity);
    rewrite AS; cbn [bind];
    assert (Se : shp (tempty (butlast 3 (shp x) ++ [3] ++ lastn 2 (shp x)) junk) = pre ++ [3; 2 * m; 2 * n])
      by (cbn [tempty shp]; now rewrite Sx, butlast3, lastn2);
    set (e := tempty _ junk) in *; clearbody e; cbn [relative_positions foldM];
    destruct (Hf1 PR) as [R0 C0]; destruct (f PR) as [r c]; cbn [fst snd pos_color pos_others] in *;
    destruct (get_all_phase pre Cx m n Hpre HX Hm Hn x r c Sx R0 C0) as (v & -> & Sv & _); cbn [bind].
  - intros H1. destruct (resolve_step2 m r Hm R0) as (r' & Er & _). destruct (resolve_step2 n c Hn C0) as (c' & Ec & _).
    rewrite (tsetx_ell_fails e v pre [3; 2 * m; 2 * n] [ilist1 0; ISl (step2 r); ISl (step2 c)] [RSl (mkR 0 1 1); RSl (mkR r' m 2); RSl (mkR c' n 2)] Se Hpre eq_refl); auto.
    + unfold resolve_all, resolve_ix, ilist1. rewrite resolve_ilist1, Er, Ec by lia. reflexivity.
    + rewrite Sv. apply expandable_mid; auto.
  - intros -> H2. destruct (set_one_phase pre 3 m n Hpre ltac:(lia) Hm Hn e v 0 r c Se ltac:(lia) R0 C0 Sv) as (r1 & -> & S1 & _). cbn [bind].
    destruct (Z.eq_dec Cy 0) as [->|]; [now rewrite (has_channel_not y 0 0) by (auto; lia)|].
    rewrite (has_channel_ok pre m n y Cy 0) by (auto; lia). cbn [bind].
    destruct (get_one_phase pre Cy m n Hpre HY Hm Hn y 0 r c Sy ltac:(lia) R0 C0) as (v0 & -> & Sv0 & _). cbn [bind].
    assert (N1 : ndim e = ndim r1) by (unfold ndim; congruence). rewrite N1.
    destruct (set_one_phase pre 3 m n Hpre ltac:(lia) Hm Hn r1 v0 1 r c S1 ltac:(lia) R0 C0 Sv0) as (r2 & -> & S2 & _). cbn [bind].
    now rewrite (has_channel_not y Cy 1) by (auto; lia).
Qed.

(** The batch, rows and columns of the two must agree. *)
Theorem last_step_mismatch junk (x y : T) pre' Cx Cy h w h' w' : shp x = pre ++ [Cx; h; w] -> shp y = pre' ++ [Cy; h'; w'] ->
  (pre, h, w) <> (pre', h', w') -> last_step_demosaic junk x y s = Err AssertionError.
Proof.
  intros Sx Sy N. unfold last_step_demosaic. rewrite (check_sensor_alignment_ok s sa Hsa Hv). cbn [bind].
  destruct (beg_index_spec sa Hsa) as (f & -> & _). cbn [bind]. rewrite Sx, Sy, !butlast3, !lastn2.
  replace (_ && _) with false; [reflexivity|]. symmetry. apply not_true_iff_false. intros E. apply andb_true_iff in E as [E1 E2]. apply N.
  assert (Q : forall a b : list Z, all2 Z.eqb a b = true -> a = b).
  { induction a as [|u a IH]; destruct b as [|v b]; cbn [all2]; try discriminate; auto. intros E. apply andb_true_iff in E as [E E']. apply Z.eqb_eq in E. f_equal; auto. }
  apply Q in E1. apply Q in E2. congruence.
Qed.

(** In terms of the letters of the pattern. *)
Theorem last_step_named junk (x y : T) Cx Cy : 0 <= Cx -> 0 <= Cy -> shp x = pre ++ [Cx; 2 * m; 2 * n] -> shp y = pre ++ [Cy; 2 * m; 2 * n] ->
  (Cx <> 1 -> last_step_demosaic junk x y s = Err RuntimeError) /\
  (Cx = 1 -> Cy < 2 -> last_step_demosaic junk x y s = Err IndexError) /\
  (Cx = 1 -> 2 <= Cy -> exists z, last_step_demosaic junk x y s = Ok z /\ shp z = pre ++ [3; 2 * m; 2 * n] /\
    forall p k i j, valid pre p -> 0 <= k < 3 -> 0 <= i < 2 * m -> 0 <= j < 2 * n ->
      (names sa i j k -> at_ z (p ++ [k; i; j]) = at_ x (p ++ [0; i; j])) /\
      (forall c, names sa i j c -> k < c -> at_ z (p ++ [k; i; j]) = at_ y (p ++ [k; i; j])) /\
      (forall c, names sa i j c -> c < k -> at_ z (p ++ [k; i; j]) = at_ y (p ++ [k - 1; i; j]))).
Proof.
  intros HX HY Sx Sy. destruct (last_step_ends junk x y Cx Cy HX HY Sx Sy) as [E1 [E2 E3]]. split; auto. split; auto. intros H1 H2.
  destruct (E3 H1 H2) as [z [Ez [Sz Vz]]]. exists z. split; auto. split; auto. intros p k i j Vp Hk Hi Hj. specialize (Vz p k i j Vp Hk Hi Hj). cbv zeta in Vz.
  split; [|split].
  - intros N. apply names_chan in N; auto. rewrite N, Z.eqb_refl in Vz. exact Vz.
  - intros c N L. apply names_chan in N; auto. rewrite N in Vz. destruct (Z.eqb_spec k c); [lia|]. destruct (Z.ltb_spec k c); [exact Vz|lia].
  - intros c N L. apply names_chan in N; auto. rewrite N in Vz. destruct (Z.eqb_spec k c); [lia|]. destruct (Z.ltb_spec k c); [lia|exact Vz].
Qed.
End Channels.
