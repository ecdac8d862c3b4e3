(** An SSIM spoilt by rounding (C153). *)
From Coq Require Import QArith Qcanon.
From Verif Require Import ExampleUtil RoundSsim.
Open Scope Z_scope.

Lemma cancellation : rounds (qq 1 10) (fmul (qz 10) (qz 10)) (qz 90) /\ rounds (qq 1 10) (fmul (qz 11) (qz 11)) (qz 121) /\
  rounds (qq 1 10) (fmul (qz 10) (qz 11)) (qz 121) /\
  ssim_at (F := QcF) (qz 1) (qz 1) (qz 1) (qz 10) (qz 11) (qz 100) (qz 121) (qz 110) = qq 221 222 /\
  fl_ssim_at (F := QcF) (qq 1 10) (qz 1) (qz 1) (qz 1) (qz 10) (qz 11) (qz 90) (qz 121) (qz 121) (fdiv (qz (-23 * 221)) (qz (9 * 222))) /\
  flt (fdiv (qz (-23 * 221)) (qz (9 * 222))) (qz (-2)).
Proof.
  do 3 (split; [vm_compute; reflexivity|]). split; [apply Qc_is_canon; vm_compute; reflexivity|]. split; [|vm_compute; reflexivity].
  exists (qz 1), (qz 1), (qz 1), (qz 100), (qz 121), (qz 110), (qz (-10)), (qz 0), (qz 11), (qz (-10)), (qz 0), (qz 11).
  exists (qz 221), (qz 23), (qz 221), (qz 222), (qz (-10)), (qz (-9)), (qz (221 * 23)), (qz (222 * -9)).
  assert (S : forall t : QcF, fl_scaled (qq 1 10) (qz 1) (qz 1) t t) by (intros t; left; split; [apply Qc_is_canon; vm_compute; reflexivity|reflexivity]).
  repeat (match goal with |- _ /\ _ => split end); try apply S; try (vm_compute; reflexivity).
Qed.
(** A pixel with an error of a hundredth in every operation. *)
Lemma pixel_ex : let e := qq 1 100 in let K := qz 100 in
  flt (ssim_delta e K K (qz 2) (qz 1) 1) (ssim_floor K K) /\
  errs QcF (fpow (fadd f1 e) 1) (qz 1) (qq 101 200) (qq 1 2) /\ errs QcF (fpow (fadd f1 e) 1) (qz 1) (qq 99 400) (qq 1 4) /\
  errs QcF (fpow (fadd f1 e) 2) (qz 1) (qq 101 200) (qq 1 2) /\ errs QcF (fpow (fadd f1 e) 2) (qz 1) (qq 99 400) (qq 1 4) /\ errs QcF (fpow (fadd f1 e) 2) (qz 1) (qq 101 800) (qq 1 8) /\
  fl_ssim_at e K K (qz 2) (qq 101 200) (qq 99 400) (qq 101 200) (qq 99 400) (qq 101 800)
    (qq 13056300707335242099870354878878400 12421337206711711891892996863367991).
Proof.
  cbv zeta. split; [vm_compute; reflexivity|]. do 5 (split; [split; vm_compute; reflexivity|]).
  exists (qq 10100 1), (qq 9900 1), (qq 101 50), (qq 1030301 4000000), (qq 970299 16000000), (qq 1009899 8000000), (qq 99959599 400000000), (qq 295980399 1600000000), (qq 10201 800000000), (qq 1019687869399 2000000000000), (qq 2959508009601 8000000000000), (qq 104060401 4000000000000).
  exists (qq 4080501999799 400000000), (qq 1960200010301979699 200000000000000), (qq 514241803 1600000000), (qq 1599890909938497 160000000000), (qq 710864208206897 800000000000000), (qq 784150375556612482803 80000000000000000), (qq 807858606266368104929478208130601 8000000000000000000000000), (qq 124200950729910407207038075636816542009 1280000000000000000000000000000).
  assert (N : qz 2 <> @f1 QcF) by discriminate.
  repeat (match goal with |- _ /\ _ => split end); try (right; split; [exact N|]); vm_compute; reflexivity.
Qed.
Lemma half_rounds (v : QcF) : rounds (qq 1 2) v (fmul v (qq 3 2)).
Proof.
  unfold rounds. assert (E : fsub (fmul v (qq 3 2)) v = fmul (qq 1 2) v).
  { assert (E : qq 3 2 = fadd (qq 1 2) (@f1 QcF)) by (apply Qc_is_canon; vm_compute; reflexivity). rewrite E. generalize (qq 1 2). intros h. change (Qcminus (Qcmult v (Qcplus h 1)) v = Qcmult h v)%Qc. ring. }
  rewrite E, fabs_mul. rewrite (fabs_pos QcF (qq 1 2)) by (vm_compute; reflexivity). apply fle_refl.
Qed.
