(** Examples for C154. *)
From Coq Require Import QArith Qcanon Qround.
From Verif Require Import ExampleUtil EdgeExample PropsSsim SsimRefute RoundSsimDet RoundSsimEx.
Open Scope Z_scope.

(** Rounding down to a multiple of 1/16. *)
Definition sixteenth (v : QcF) : QcF := qq (Qfloor (this v * 16)) 16.
(** Numbers below 1/100 become 0. *)
Definition flush (v : QcF) : QcF := if fleb (qq 1 100) (fabs v) then v else f0.
(** The exact blur of the SSIM of C51, on two axes, without padder. *)
Definition blur51 (z : tensor QcF) : tensor QcF := match snd (sep_forward 20 garbage (ss_blur (s51 None true)) z (AxSeq [1; 2])) with Ok r => r | Err _ => z end.

Lemma det_ex : sixteenth f1 = f1 /\ (forall j, valid [2; 2; 2] j -> rd_ssim_den sixteenth blur51 (s51 None true) (qq 6 5) x51 x51 j <> f0) /\
  show (Ok (rd_ssim_full sixteenth blur51 (s51 None true) (qq 6 5) x51 x51)) = Some ([2; 2; 2], repeat (1 # 1)%Q 8) /\
  show (Ok (rd_ssim_full sixteenth blur51 (s51 None true) (qq 6 5) x51 y51)) = show (Ok (rd_ssim_full sixteenth blur51 (s51 None true) (qq 6 5) y51 x51)) /\
  show (Ok (rd_ssim_full sixteenth blur51 (s51 None true) (qq 6 5) x51 y51)) = Some ([2; 2; 2], [7 # 8; 7 # 8; 7 # 8; 15 # 16; -19 # 16; -19 # 16; -1 # 1; -1 # 1]%Q) /\
  show (Ok (rd_ssim_full (fun v => v) blur51 (s51 None true) (qq 6 5) x51 y51)) =
    Some ([2; 2; 2], [88871 # 96733; 108511 # 117993; 1070395 # 1153703; 1834283 # 1934439; -11 # 16; -11 # 16; -27328 # 56829; -27328 # 56829]%Q) /\
  shp (blur51 x51) = shp (blur51 y51) /\ shp (blur51 (rd_prod sixteenth x51 y51)) = shp (blur51 x51).
Proof.
  split; [apply Qc_is_canon; reflexivity|]. split.
  { assert (H : forallb (fun j => negb (is_zero (rd_ssim_den sixteenth blur51 (s51 None true) (qq 6 5) x51 x51 j))) (tindices [2; 2; 2]) = true) by (vm_compute; reflexivity).
    intros j V E. rewrite forallb_forall in H. specialize (H j (proj2 (In_tindices _ _) V)). apply (is_zero_iff QcF) in E. rewrite E in H. discriminate H. }
  split; [vm_compute; reflexivity|]. split; [vm_compute; reflexivity|]. do 2 (split; [vm_compute; reflexivity|]). split; vm_compute; reflexivity.
Qed.
Lemma blur51_run : exists E : tensor QcF -> list Z -> QcF, exists osh : list Z,
  (forall z, shp z = shp x51 -> snd (sep_forward 20 garbage (ss_blur (s51 None true)) z (AxSeq [1; 2])) = Ok (blur51 z) /\ shp (blur51 z) = osh /\ forall j, valid osh j -> at_ (blur51 z) j = E z j) /\
  forall u v j, shp u = shp x51 -> teq u v -> valid osh j -> E u j = E v j.
Proof.
  destruct (ssim_main QcF 20 garbage _ _ _ _ _ _ _ _ _ (call51 None true (or_introl eq_refl))) as [psh [osh [ws [c [BF _]]]]].
  pose proof (bf_blurs _ _ _ _ _ _ _ _ _ _ BF) as BL. exists (blur_at 20 garbage [1%nat; 2%nat] kers51 None ws), osh. split; [|apply (bl_ext _ _ _ _ _ _ _ BL)].
  intros z Hz. destruct (bl_run _ _ _ _ _ _ _ BL (ss_blur (s51 None true)) z (mlike_refl QcF _) Hz) as [b'' [y [Q1 [_ [_ [Q2 Q3]]]]]].
  change (map Z.of_nat [1%nat; 2%nat]) with [1; 2] in Q1. unfold blur51. rewrite Q1. cbn [snd]. auto.
Qed.
Lemma blur51_teq : forall u v, shp u = shp x51 -> teq u v -> teq (blur51 u) (blur51 v).
Proof.
  intros u v Hu E. destruct blur51_run as [B [osh [R X]]]. destruct (R u Hu) as [_ [U1 U2]]. destruct (R v) as [_ [V1 V2]]; [now rewrite <- (proj1 E)|].
  split; [congruence|]. intros j Vj. rewrite U1 in Vj. rewrite U2, V2 by auto. now apply X.
Qed.
Lemma flush_ex : (forall v, rounds (qz 1) v (flush v)) /\ (forall v, flush (fmul two (flush v)) = fmul two (flush v)) /\ flush f1 = f1 /\ flush (qq 1 200) = qz 0 /\
  (forall z, shp z = shp x51 -> fl_forward (qz 1) 20 garbage (ss_blur (s51 None true)) z (AxSeq [1; 2]) (blur51 z)) /\
  scale_factor (s51 None true) [1; 2] = Ok (fdiv (fofZ 6) (fofZ 5)).
Proof.
  assert (T1 : fle (@f0 QcF) (qz 1)) by reflexivity.
  split.
  { intros v. unfold flush. destruct (fleb _ _); [now apply rounds_refl|apply (zero_rounds QcF)]. }
  split.
  { intros v. unfold flush at 2 3. destruct (fleb (qq 1 100) (fabs v)) eqn:E; [|rewrite (two_zero QcF); reflexivity].
    unfold flush. pose proof (double_large QcF _ _ E) as H. unfold fle in H. now rewrite H. }
  split; [reflexivity|]. split; [reflexivity|]. split; [|reflexivity].
  intros z Hz. destruct blur51_run as [B [osh [R _]]]. apply forward_exact; [exact T1|]. now apply R.
Qed.
Lemma det_pixel_ex : let num f := rd_num sixteenth (qq 5 3) (qq 4 3) f (qq 7 3) (qq 5 3) (qq 9 2) in
  let den f := rd_den sixteenth (qq 5 3) (qq 4 3) f (qq 7 3) (qq 5 3) (qq 15 2) (qq 10 3) in
  num (qq 6 5) = qq 525 16 /\ den (qq 6 5) = qq 421 8 /\ num (qz 1) = qq 63 2 /\ den (qz 1) = qq 765 16 /\
  show (Ok (rd_prod sixteenth (mkT [1] (fun _ => qq 5 3)) (mkT [1] (fun _ => qq 7 3)))) = Some ([1], [31 # 8]%Q).
Proof. cbv zeta. do 4 (split; [apply Qc_is_canon; vm_compute; reflexivity|]). vm_compute; reflexivity. Qed.
Lemma floor_int n k : Qfloor (this (@fofZ QcF k) * inject_Z n) = k * n.
Proof. rewrite fofZ_q. rewrite <- (Qfloor_Z (k * n)). apply Qfloor_comp. unfold qz. cbn [this Q2Qc]. rewrite Qred_correct, inject_Z_mult. reflexivity. Qed.
Lemma mean_ex : (forall k, sixteenth (fofZ k) = fofZ k) /\ rd_mean sixteenth (fun _ => f1) [5; 6; 7] (qz 1) /\
  sixteenth (fmul (qz 3) (sixteenth (fdiv f1 (qz 3)))) = qq 15 16 /\ rd_sum sixteenth (fun _ => qq 1 3) [5; 6] (qq 5 8).
Proof.
  split.
  { intros k. unfold sixteenth. change 16%Q with (inject_Z 16). rewrite floor_int, fofZ_q. apply Qc_is_canon. unfold qq, qz. cbn [this Q2Qc]. rewrite !Qred_correct. unfold Qeq. cbn. lia. }
  split; [|split; [apply Qc_is_canon; vm_compute; reflexivity|]].
  2: { replace (qq 5 8) with (sixteenth (fadd (qq 1 3) (qq 1 3))) by (apply Qc_is_canon; vm_compute; reflexivity).
    apply (rd_add _ (fun _ => qq 1 3) [5] [6]); [apply (rd_one _ (fun _ => qq 1 3))|apply (rd_one _ (fun _ => qq 1 3))|reflexivity]. }
  exists (sixteenth (fadd f1 (sixteenth (fadd f1 f1)))). split; [|apply Qc_is_canon; vm_compute; reflexivity].
  apply (rd_add _ (fun _ => f1) [5] [6; 7]); [apply (rd_one _ (fun _ => f1))| |reflexivity].
  apply (rd_add _ (fun _ => f1) [6] [7]); [apply (rd_one _ (fun _ => f1))|apply (rd_one _ (fun _ => f1))|reflexivity].
Qed.
Lemma score_ex : let l := [[0; 0; 0]; [0; 0; 1]; [0; 1; 0]; [0; 1; 1]] in
  (forall j, In j l -> rd_ssim_den sixteenth blur51 (s51 None true) (qq 6 5) x51 x51 j <> f0) /\
  rd_mean sixteenth (at_ (rd_ssim_full sixteenth blur51 (s51 None true) (qq 6 5) x51 x51)) l (qz 1).
Proof.
  cbv zeta. set (p := at_ (rd_ssim_full sixteenth blur51 (s51 None true) (qq 6 5) x51 x51)). split.
  { intros j Hj. apply det_ex. apply In_tindices. destruct Hj as [<-|[<-|[<-|[<-|[]]]]]; vm_compute; tauto. }
  exists (sixteenth (fadd (sixteenth (fadd (p [0; 0; 0]) (p [0; 0; 1]))) (sixteenth (fadd (p [0; 1; 0]) (p [0; 1; 1]))))).
  split; [|apply Qc_is_canon; vm_compute; reflexivity].
  apply (rd_add _ p [[0; 0; 0]; [0; 0; 1]] [[0; 1; 0]; [0; 1; 1]]); [| |reflexivity].
  - apply (rd_add _ p [[0; 0; 0]] [[0; 0; 1]]); [apply rd_one|apply rd_one|reflexivity].
  - apply (rd_add _ p [[0; 1; 0]] [[0; 1; 1]]); [apply rd_one|apply rd_one|reflexivity].
Qed.
