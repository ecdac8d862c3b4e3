(** C138: padding commutes with functions applied pixel by pixel.

    Vocabulary (PadMap.v; PropsPadAlg.v):
    - [mapped g x y]: x and y have one shape and y's pixels are g of x's;
    - [increasing g]: u <= v gives g u <= g v; [odd_function g]: g (- v) = - g v;
    - [pointwise_mode g]: replicate, circular, periodize, symmetric and reflect for any g, antisymmetric
      if g is odd, constant if g fixes both constants, maximum, minimum and median if g is increasing;
      [par_of]: the same of the parameters of one axis;
    - [pad_call], [all_fine], [all_par]: as in PropsPadAlg.v. *)
From Coq Require Import QArith Qcanon.
From Verif Require Import ExampleUtil PadMap PropsPadAlg PropsMirror PropsMono PadTwiceEx IndexLemmas.
Open Scope Z_scope.

Theorem C138_pad : forall (F : ofield) (g : F -> F) fuel junk junk' p (x y : tensor F) ax al,
  pad_call fuel p x ax al -> all_fine F p x al -> all_par F (par_of (pointwise_mode g)) p al -> mapped g x y ->
  exists x' y', padder_forward fuel junk p x ax = Ok x' /\ padder_forward fuel junk' p y ax = Ok y' /\ mapped g x' y'.
Proof. exact pad_map. Qed.
Print Assumptions C138_pad.

(** A square on a reflected image, clipping at 3 with the median, a cube with antisymmetric padding. *)
Definition gsquare (v : QcF) : QcF := fmul v v.
Definition gcube (v : QcF) : QcF := fmul v (fmul v v).
Definition gclip (v : QcF) : QcF := if fleb v (qz 3) then v else qz 3.
Definition p_of (m : mode QcF) := sym (2, 1) m.
Example C138_example :
  mapped gsquare x3 (ofz [3] [1; 4; 16]) /\ mapped gclip x3 (ofz [3] [1; 2; 3]) /\ mapped gcube x3 (ofz [3] [1; 8; 64]) /\
  increasing gclip /\ odd_function gcube /\
  (forall m, In m [MReflect; MStat SMedian; MAntisymmetric] ->
     pad_call 9 (p_of m) x3 (AxInt 0) [0%nat] /\ all_fine QcF (p_of m) x3 [0%nat]) /\
  all_par QcF (par_of (pointwise_mode gsquare)) (p_of MReflect) [0%nat] /\
  all_par QcF (par_of (pointwise_mode gclip)) (p_of (MStat SMedian)) [0%nat] /\
  all_par QcF (par_of (pointwise_mode gcube)) (p_of MAntisymmetric) [0%nat] /\
  show (padder_forward 9 garbage (p_of MReflect) x3 (AxInt 0)) = Some ([6], zq [4; 2; 1; 2; 4; 2]) /\
  show (padder_forward 9 garbage (p_of MReflect) (ofz [3] [1; 4; 16]) (AxInt 0)) = Some ([6], zq [16; 4; 1; 4; 16; 4]) /\
  show (padder_forward 9 garbage (p_of (MStat SMedian)) x3 (AxInt 0)) = Some ([6], zq [2; 2; 1; 2; 4; 2]) /\
  show (padder_forward 9 garbage (p_of (MStat SMedian)) (ofz [3] [1; 2; 3]) (AxInt 0)) = Some ([6], zq [2; 2; 1; 2; 3; 2]) /\
  show (padder_forward 9 garbage (p_of MAntisymmetric) x3 (AxInt 0)) = Some ([6], zq [-2; -1; 1; 2; 4; -4]) /\
  show (padder_forward 9 garbage (p_of MAntisymmetric) (ofz [3] [1; 8; 64]) (AxInt 0)) = Some ([6], zq [-8; -1; 1; 8; 64; -64]).
Proof.
  split. { split; [reflexivity|]. three; apply Qc_is_canon; vm_compute; reflexivity. }
  split. { split; [reflexivity|]. three; apply Qc_is_canon; vm_compute; reflexivity. }
  split. { split; [reflexivity|]. three; apply Qc_is_canon; vm_compute; reflexivity. }
  assert (I1 : increasing gclip).
  { intros u v H. unfold gclip. destruct (fleb u (qz 3)) eqn:E, (fleb v (qz 3)) eqn:E2; auto.
    - exfalso. pose proof (fle_trans QcF _ _ _ H E2) as H3. unfold fle in H3. congruence.
    - apply fle_refl. }
  assert (O1 : odd_function gcube) by (intros v; unfold gcube; cbn; ring).
  split; [exact I1|]. split; [exact O1|].
  split. { intros m Hm. split; [destruct Hm as [<-|[<-|[<-|[]]]]; ex_call|]. intros d [<-|[]]. eexists. split; [reflexivity|]. split; [cbn; lia|]. split; [cbn; lia|].
    right. right. split; [left; cbn; lia|]. destruct Hm as [<-|[<-|[<-|[]]]]; eexists; reflexivity. }
  split. { intros c q [<-|[]] Hq. cbn in Hq. injection Hq as <-. exact I. }
  split. { intros c q [<-|[]] Hq. cbn in Hq. injection Hq as <-. exact I1. }
  split. { intros c q [<-|[]] Hq. cbn in Hq. injection Hq as <-. exact O1. }
  split; [vm_compute; reflexivity|]. split; [vm_compute; reflexivity|]. split; [vm_compute; reflexivity|].
  split; [vm_compute; reflexivity|]. split; vm_compute; reflexivity.
Qed.

(** The other modes compute with the pixels: even a strictly increasing cube changes what they add. *)
Lemma not_mapped g n (r r' : res (tensor QcF)) l l' k : show r = Some ([n], l) -> show r' = Some ([n], l') -> (k < length (indices [n]))%nat ->
  (forall u v : QcF, (this u == nth k l 0)%Q -> (this v == nth k l' 0)%Q -> v <> g u) -> exists y y', r = Ok y /\ r' = Ok y' /\ ~ mapped g y y'.
Proof.
  intros H H' Hk Hne. destruct r as [y|]; [|discriminate]. destruct r' as [y'|]; [|discriminate]. exists y, y'. split; auto. split; auto. intros [E1 E2].
  destruct (show_nth y _ _ _ H Hk) as [S1 V1]. destruct (show_nth y' _ _ _ H' Hk) as [S2 V2].
  rewrite S1 in E2. specialize (E2 _ (indices_valid _ _ (nth_In _ [] Hk))). revert E2. apply Hne; [rewrite <- V1|rewrite <- V2]; reflexivity.
Qed.
Theorem C138_modes_differ : forall m : mode QcF, In m [MStat SMean; MLinearRamp; MOddReflect; MOddSymmetric; MSmooth] ->
  exists p x y x' y', p_mode p = NItem m /\ pad_call 9 p x (AxInt 0) [0%nat] /\ all_fine QcF p x [0%nat] /\ mapped gcube x y /\
  padder_forward 9 garbage p x (AxInt 0) = Ok x' /\ padder_forward 9 garbage p y (AxInt 0) = Ok y' /\ ~ mapped gcube x' y'.
Proof.
  intros m Hm. exists (sym (2, 1) m), x3, (ofz [3] [1; 8; 64]).
  assert (G : exists l l' k, show (padder_forward 9 garbage (sym (2, 1) m) x3 (AxInt 0)) = Some ([6], l) /\
      show (padder_forward 9 garbage (sym (2, 1) m) (ofz [3] [1; 8; 64]) (AxInt 0)) = Some ([6], l') /\ (k < 6)%nat /\
      ~ (nth k l' 0 == nth k l 0 * (nth k l 0 * nth k l 0))%Q).
  { destruct Hm as [<-|[<-|[<-|[<-|[<-|[]]]]]]; do 2 eexists;
      [exists 0%nat|exists 1%nat|exists 0%nat|exists 0%nat|exists 0%nat];
      (split; [vm_compute; reflexivity|]; split; [vm_compute; reflexivity|]; split; [lia|]; cbn [nth]; intros K; vm_compute in K; discriminate K). }
  destruct G as [l [l' [k [G1 [G2 [G3 G4]]]]]].
  destruct (not_mapped gcube 6 _ _ l l' k G1 G2) as [x' [y' E]]; [exact G3| |].
  { intros u v U V K. apply G4. rewrite <- U, <- V, K. unfold gcube. change (this (Qcmult u (Qcmult u u)) == u * (u * u))%Q. cbn [this Qcmult Q2Qc]. rewrite !Qred_correct. reflexivity. }
  exists x', y'. split; [reflexivity|]. split; [clear - Hm; destruct Hm as [<-|[<-|[<-|[<-|[<-|[]]]]]]; ex_call|].
  split; [|split; [|exact E]].
  { intros d [<-|[]]. eexists. split; [reflexivity|]. split; [cbn; lia|]. split; [cbn; lia|]. right. right. split; [left; cbn; lia|].
    destruct Hm as [<-|[<-|[<-|[<-|[<-|[]]]]]]; eexists; reflexivity. }
  clear. split; [reflexivity|]. three; apply Qc_is_canon; vm_compute; reflexivity.
Qed.
Print Assumptions C138_modes_differ.
