(** The modes for which a repeated axis is not a chain of paddings (C126). *)
From Coq Require Import QArith Qcanon.
From Verif Require Import PoolRepeat ExampleUtil PadTwiceEx.
Open Scope Z_scope.

Definition x3r := ofz [3] [1; 2; 4].
Ltac ex_repeat := split; [unfold ndim; cbn; lia | fin_nat | vm_compute; reflexivity | apply all_lt; vm_compute; reflexivity | fin_nat ].
Lemma repeat_differs : forall m : mode QcF, In m [MLinearRamp; MPeriodize] ->
  exists fuel junk p (x : tensor QcF), repeat_call fuel p x (AxSeq [0; 0]) [0%nat; 0%nat] /\ p_mode p = NItem m /\ p_width p = NItem (1, 1) /\
    exists y y', padder_forward fuel junk p x (AxSeq [0; 0]) = Ok y /\ one_by_one fuel junk p x [0%nat; 0%nat] = Ok y' /\ ~ teq y y'.
Proof.
  assert (G : forall (r r' : res (tensor QcF)) a b, show r = Some a -> show r' = Some b -> a <> b -> exists y y', r = Ok y /\ r' = Ok y' /\ ~ teq y y').
  { intros [y|e] [y'|e'] a b H1 H2 N; try discriminate. exists y, y'. split; auto. split; auto. intros E. apply teq_show in E. congruence. }
  intros m [<-|[<-|[]]].
  - exists 9%nat, garbage, (pad1d (1, 1) MLinearRamp), x3r. split; [ex_repeat|]. split; [reflexivity|]. split; [reflexivity|]. apply (G _ _ ([7], [0%Q; 1 # 2; 1%Q; 2%Q; 4%Q; 7%Q; 10%Q]) ([7], zq [0; 0; 1; 2; 4; 10; 10])); [vm_compute; reflexivity|vm_compute; reflexivity|].
    intros E. apply (f_equal snd) in E. cbn [snd] in E. apply (f_equal (fun l => Qnum (nth 1 l 0%Q))) in E. vm_compute in E. discriminate.
  - exists 9%nat, garbage, (pad1d (1, 1) MPeriodize), x3r. split; [ex_repeat|]. split; [reflexivity|]. split; [reflexivity|]. apply (G _ _ ([9], zq [1; 4; 1; 2; 4; 4; 1; 4; 1]) ([8], zq [1; 4; 1; 2; 4; 4; 1; 4])); [vm_compute; reflexivity|vm_compute; reflexivity|discriminate].
Qed.
