(** C151: averages that leave the padding out are means of the image.

    Vocabulary (AvgLaws.v): [avg_call F fuel ks stride m x ax al l sts p ms lens B]: m is AvgPoolNd(ks, stride, same_padder=p) with
    zero padding, called on x and the axes al, whose output lengths come in the same order whether or not the axes are sorted (the
    condition of C40_iff). *)
From Coq Require Import QArith Qcanon Sorted Permutation.
From Verif Require Import AvgLaws ExampleUtil PropsPool.
Open Scope Z_scope.

(** Brightness and contrast of the image carry over, also at the border. *)
Theorem C151_affine : forall (F : ofield) fuel junk ks stride m (x x' : tensor F) ax al l sts p ms lens B a c, avg_call F fuel ks stride m x ax al l sts p ms lens B ->
  shp x' = shp x -> (forall i, valid (shp x) i -> at_ x' i = fadd (fmul a (at_ x i)) c) ->
  exists y y', snd (avg_forward fuel junk false m x ax) = Ok y /\ snd (avg_forward fuel junk false m x' ax) = Ok y' /\ shp y' = shp y /\
    forall j, valid (shp y) j -> at_ y' j = fadd (fmul a (at_ y j)) c.
Proof. exact avg_affine. Qed.
Print Assumptions C151_affine.
Theorem C151_constant : forall (F : ofield) fuel junk ks stride m (x : tensor F) ax al l sts p ms lens B c, avg_call F fuel ks stride m x ax al l sts p ms lens B ->
  (forall i, valid (shp x) i -> at_ x i = c) ->
  exists y, snd (avg_forward fuel junk false m x ax) = Ok y /\ forall j, valid (shp y) j -> at_ y j = c.
Proof. exact avg_constant. Qed.
Print Assumptions C151_constant.
Theorem C151_sum : forall (F : ofield) fuel junk ks stride m (x x' x2 : tensor F) ax al l sts p ms lens B, avg_call F fuel ks stride m x ax al l sts p ms lens B ->
  shp x' = shp x -> shp x2 = shp x -> (forall i, valid (shp x) i -> at_ x2 i = fadd (at_ x i) (at_ x' i)) ->
  exists y y' y2, snd (avg_forward fuel junk false m x ax) = Ok y /\ snd (avg_forward fuel junk false m x' ax) = Ok y' /\ snd (avg_forward fuel junk false m x2 ax) = Ok y2 /\
    shp y' = shp y /\ shp y2 = shp y /\ forall j, valid (shp y) j -> at_ y2 j = fadd (at_ y j) (at_ y' j).
Proof. exact avg_sum. Qed.
Print Assumptions C151_sum.
Theorem C151_order : forall (F : ofield) fuel junk ks stride m (x x' : tensor F) ax al l sts p ms lens B, avg_call F fuel ks stride m x ax al l sts p ms lens B ->
  shp x' = shp x -> (forall i, valid (shp x) i -> fle (at_ x i) (at_ x' i)) ->
  exists y y', snd (avg_forward fuel junk false m x ax) = Ok y /\ snd (avg_forward fuel junk false m x' ax) = Ok y' /\ shp y' = shp y /\
    forall j, valid (shp y) j -> fle (at_ y j) (at_ y' j).
Proof. exact avg_order. Qed.
Print Assumptions C151_order.
Theorem C151_range : forall (F : ofield) fuel junk ks stride m (x : tensor F) ax al l sts p ms lens B lo hi, avg_call F fuel ks stride m x ax al l sts p ms lens B ->
  (forall i, valid (shp x) i -> fle lo (at_ x i) /\ fle (at_ x i) hi) ->
  exists y, snd (avg_forward fuel junk false m x ax) = Ok y /\ forall j, valid (shp y) j -> fle lo (at_ y j) /\ fle (at_ y j) hi.
Proof. exact avg_range. Qed.
Print Assumptions C151_range.

Lemma call45 (x : tensor QcF) : shp x = [4; 5] ->
  avg_call QcF 20 (NList [3; 2]) (NList [Some 1; None]) (avg1 (Some zero_pad)) x AxNone [0%nat; 1%nat] [3; 2] [Some 1; None] zero_pad [MConstant; MConstant] lens43 [0%nat; 1%nat].
Proof.
  intros S. apply (avg_call_shape QcF _ _ _ _ x45 x); [exact S|]. destruct C40_example as [E1 [E2 [E3 [E4 [E5 _]]]]].
  constructor; auto; [discriminate|intros k [<-|[<-|[]]]; lia].
Qed.
(** If the padding is counted, a constant image gets dark at the border, below its smallest pixel. *)
Theorem C151_counted_differs : exists (m : pool QcF) x, (exists ks stride ax al l sts p ms lens B, avg_call QcF 20 ks stride m x ax al l sts p ms lens B) /\
  (forall i, valid (shp x) i -> at_ x i = qz 6) /\
  show (snd (avg_forward 20 garbage true m x AxNone)) = Some ([4; 3], [2; 4; 4; 3; 6; 6; 3; 6; 6; 2; 4; 4]%Q).
Proof.
  exists (avg1 (Some zero_pad)), (mkT [4; 5] (fun _ => qz 6)). split; [do 10 eexists; apply call45; reflexivity|]. split; [reflexivity|]. vm_compute; reflexivity.
Qed.
Print Assumptions C151_counted_differs.
(** With any other padding the counts do not fit: with replicated pixels a constant image gets bright at the border. *)
Definition edge_pad : padder QcF := mkPadder (NItem (0, 0)) (NItem MReplicate) (NItem (f0, f0)) (NItem (f0, f0)) (NItem (None, None)) 0.
Theorem C151_replicate_differs : exists (m : pool QcF) x, avg_init (NList [3; 2]) (NList [Some 1; None]) (Some edge_pad) = Ok m /\
  shp x = [4; 5] /\ (forall i, valid (shp x) i -> at_ x i = qz 6) /\
  show (snd (avg_forward 20 garbage false m x AxNone)) = Some ([4; 3], [18; 9; 9; 12; 6; 6; 12; 6; 6; 18; 9; 9]%Q).
Proof.
  exists (avg1 (Some edge_pad)), (mkT [4; 5] (fun _ => qz 6)). split; [reflexivity|]. split; [reflexivity|]. split; [reflexivity|]. vm_compute; reflexivity.
Qed.
Print Assumptions C151_replicate_differs.
Example C151_example :
  avg_call QcF 20 (NList [3; 2]) (NList [Some 1; None]) (avg1 (Some zero_pad)) x45 AxNone [0%nat; 1%nat] [3; 2] [Some 1; None] zero_pad [MConstant; MConstant] lens43 [0%nat; 1%nat] /\
  show (snd (avg_forward 20 garbage false (avg1 (Some zero_pad)) (mkT [4; 5] (fun _ => qz 6)) AxNone)) = Some ([4; 3], [6; 6; 6; 6; 6; 6; 6; 6; 6; 6; 6; 6]%Q) /\
  show (snd (avg_forward 20 garbage false (avg1 (Some zero_pad)) x45 AxNone)) =
    Some ([4; 3], [3 # 2; 15 # 4; 27 # 4; 2; 5; 9; 3; 15 # 2; 27 # 2; 7 # 2; 35 # 4; 63 # 4]%Q) /\
  show (snd (avg_forward 20 garbage false (avg1 (Some zero_pad)) (tmap (fun v => fadd (fmul (qz 4) v) (qz 1)) x45) AxNone)) =
    Some ([4; 3], [7; 16; 28; 9; 21; 37; 13; 31; 55; 15; 36; 64]%Q).
Proof. split; [apply call45; reflexivity|]. split; [vm_compute; reflexivity|]. split; vm_compute; reflexivity. Qed.
