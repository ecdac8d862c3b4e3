(** C148: how far rounding can take unsharp masking from the exact result.

    Vocabulary (RoundSharpenModel.v, RoundEdge.v; PropsSharpen.v, PropsRound.v):
    - [fl_unsharp e fuel junk u x ax y]: y is a result that UnsharpMask.forward may give in floating-point arithmetic: every
      operation of the separable blur, the difference, the product with the amount and the sum may be rounded, with a
      relative error of at most e;
    - [sharpens fuel blur pd x ax al kers p ms]: as in PropsSharpen.v;
    - [copy_mode B]: padding that copies or negates pixels or fills in constants of at most B in absolute value;
    - [gain], [roundings], [bounded], [within]: as in PropsRound.v. *)
From Coq Require Import QArith Qcanon.
From Verif Require Import ExampleUtil EdgeExample PropsEdge PropsEdge3 PropsSharpen IndexLemmas RoundSharpen.
Open Scope Z_scope.

(** d is the exact difference of the image and its blur. Where it is clear of the threshold, and everywhere without a threshold,
    the error is at most E; else the threshold times the amount may be added. *)
Theorem C148_bound : forall (F : ofield) e fuel junk (blur : pool F) pd (x y' : tensor F) ax al kers p ms a t u B, fle f0 e -> sharpens fuel blur pd x ax al kers p ms ->
  unsharp_init blur BSep a t pd = Ok u -> every_axis (length al) p (copy_mode B) -> bounded B x -> fl_unsharp e fuel junk u x ax y' ->
  let S := fadd B (fmul (gain kers) B) in
  let D := fmul (fsub (fpow (fadd f1 e) (roundings kers + 1)) f1) S in
  let E := fmul (fsub (fpow (fadd f1 e) (roundings kers + 3)) f1) (fadd B (fmul (fabs a) S)) in
  exists b y, snd (sep_forward fuel junk (um_blur u) x (AxSeq (map Z.of_nat al))) = Ok b /\ snd (unsharp_forward fuel junk u x ax) = Ok y /\ shp y' = shp y /\
    forall i, valid (shp y) i -> let d := fsub (at_ x i) (at_ b i) in
      (fle t f0 \/ flt (fadd (fabs d) D) t \/ fle (fadd t D) (fabs d) -> fle (fabs (fsub (at_ y' i) (at_ y i))) E) /\
      (fle f0 t -> fle (fabs (fsub (at_ y' i) (at_ y i))) (fadd E (fmul (fabs a) t))).
Proof. exact unsharp_rounding. Qed.
Print Assumptions C148_bound.
(** Averaging blurs without a threshold. *)
Theorem C148_mean : forall (F : ofield) e fuel junk (blur : pool F) pd (x y' : tensor F) ax al kers p ms a t u B, fle f0 e -> sharpens fuel blur pd x ax al kers p ms ->
  unsharp_init blur BSep a t pd = Ok u -> every_axis (length al) p (copy_mode B) -> bounded B x -> fl_unsharp e fuel junk u x ax y' ->
  (forall k v, In k kers -> In v k -> fle f0 v) -> (forall k, In k kers -> k = [] \/ wsum k = f1) -> fle t f0 ->
  exists y, snd (unsharp_forward fuel junk u x ax) = Ok y /\
    within (fmul (fsub (fpow (fadd f1 e) (roundings kers + 3)) f1) (fmul (fadd f1 (fmul (fofZ 2) (fabs a))) B)) y' y.
Proof. exact unsharp_rounding_mean. Qed.
Print Assumptions C148_mean.
(** The exact result is one of the possible ones. *)
Theorem C148_exact : forall (F : ofield) e fuel junk (u : unsharp F) (x y : tensor F) ax, fle f0 e -> um_kind u = BSep ->
  snd (unsharp_forward fuel junk u x ax) = Ok y -> fl_unsharp e fuel junk u x ax y.
Proof. exact unsharp_exact. Qed.
Print Assumptions C148_exact.

(** However small e is, with a threshold of (1 + e) 9/4 a pixel of x34 whose difference is 9/4 may or may not be
    sharpened: the results differ by the amount times the threshold. So the second bound's term is needed. *)
Definition edgy (e : QcF) : QcF := fmul (fadd f1 e) (qq 9 4).
Lemma kerA_mean : (forall k v, In k [kerA; kerA] -> In v k -> fle f0 v) /\ (forall k, In k [kerA; kerA] -> k = [] \/ wsum k = f1).
Proof.
  split; [intros k e [<-|[<-|[]]] He; (destruct He as [<-|[<-|[<-|[]]]]; vm_compute; reflexivity)|].
  intros k [<-|[<-|[]]]; right; apply Qc_is_canon; vm_compute; reflexivity.
Qed.
Lemma x34_51 : bounded (qz 51) x34.
Proof.
  intros i V. apply valid2 in V as [k [l [-> [Hk Hl]]]].
  assert (k = 0 \/ k = 1 \/ k = 2) as [->|[->| ->]] by lia; (assert (l = 0 \/ l = 1 \/ l = 2 \/ l = 3) as [->|[->|[->| ->]]] by lia); vm_compute; reflexivity.
Qed.
Lemma copies34 : every_axis 2 (evenp 0 MReplicate) (copy_mode (qz 51)).
Proof. exists [MReplicate; MReplicate], [(qz 0, qz 0); (qz 0, qz 0)], [(qz 0, qz 0); (qz 0, qz 0)]; do 3 (split; [reflexivity|]); intros [|[|r]] Hr; cbn; auto; lia. Qed.
Lemma show_one v q : show (Ok (mkT [1] (fun _ => v))) = Some ([1], [q]) -> this v = q.
Proof. intros H. unfold show in H. cbn [shp] in H. change (indices [1]) with [[0]] in H. cbn [map at_] in H. injection H as H. exact H. Qed.
Lemma diff34 e b : snd (sep_forward 16 garbage (um_blur (mask (qz 2) e)) x34 (AxSeq (map Z.of_nat [0; 1]%nat))) = Ok b -> fsub (at_ x34 [2; 0]) (at_ b [2; 0]) = qq 9 4.
Proof.
  intros H. assert (Q : show (t <- snd (sep_forward 16 garbage (um_blur (mask (qz 2) (qz 0))) x34 (AxSeq [0; 1])) ;; Ok (mkT [1] (fun _ => fsub (at_ x34 [2; 0]) (at_ t [2; 0])))) = Some ([1], [9 # 4]%Q)) by (vm_compute; reflexivity).
  change (um_blur (mask (qz 2) (qz 0))) with (um_blur (mask (qz 2) e)) in Q. change [0; 1] with (map Z.of_nat [0; 1]%nat) in Q. rewrite H in Q. cbn [bind] in Q.
  apply show_one in Q. apply Qc_is_canon. rewrite Q. vm_compute. reflexivity.
Qed.
Theorem C148_threshold_differs : forall e : QcF, flt f0 e -> exists y y' : tensor QcF,
  sharpens 16 (blurA None) (Some (evenp 0 MReplicate)) x34 AxNone [0; 1]%nat [kerA; kerA] (evenp 0 MReplicate) [MReplicate; MReplicate] /\
  unsharp_init (blurA None) BSep (qz 2) (edgy e) (Some (evenp 0 MReplicate)) = Ok (mask (qz 2) (edgy e)) /\ every_axis 2 (evenp 0 MReplicate) (copy_mode (qz 51)) /\ bounded (qz 51) x34 /\
  snd (unsharp_forward 16 garbage (mask (qz 2) (edgy e)) x34 AxNone) = Ok y /\ fl_unsharp e 16 garbage (mask (qz 2) (edgy e)) x34 AxNone y' /\
  at_ y [2; 0] = qz 20 /\ fsub (at_ y' [2; 0]) (at_ y [2; 0]) = fmul (qz 2) (edgy e).
Proof.
  intros e He. pose proof sharpens34 as SH. assert (HI : unsharp_init (blurA None) BSep (qz 2) (edgy e) (Some (evenp 0 MReplicate)) = Ok (mask (qz 2) (edgy e))) by reflexivity.
  destruct (sharpens_run QcF 16 garbage _ _ _ _ _ _ _ _ _ _ _ SH HI) as [_ [b [y [R1 [R2 [R3 R4]]]]]].
  assert (V : valid (shp x34) [2; 0]) by (vm_compute; repeat constructor; intros H; discriminate H).
  pose proof (diff34 _ _ R1) as Eb.
  destruct (unsharp_last QcF e 16 garbage (mask (qz 2) (edgy e)) x34 b (mkT (shp x34) (fun i => fmul (fadd f1 e) (fsub (at_ x34 i) (at_ b i)))) AxNone [0; 1]) as [y' [F1 [F2 F3]]]; auto.
  { now apply flt_fle. }
  { intros i _. cbn [at_]. unfold rounds. set (v := fsub (at_ x34 i) (at_ b i)). replace (fsub (fmul (fadd f1 e) v) v) with (fmul e v) by (change ((e * v)%Qc = ((1 + e) * v - v)%Qc); ring).
    rewrite fabs_mul, (fabs_pos QcF e) by now apply flt_fle. apply fle_refl. }
  assert (T0 : flt (qq 9 4) (edgy e)).
  { unfold flt. destruct (fleb (edgy e) (qq 9 4)) eqn:X; auto. exfalso.
    assert (P : flt f0 (fmul (qq 9 4) e)) by (apply fmul_pos; [vm_compute; reflexivity|exact He]).
    refine (flt_ne QcF _ _ (flt_fle_trans QcF _ _ _ P _) eq_refl). apply (sub_le QcF (edgy e) (qq 9 4)); [exact X|]. unfold edgy.
    change (qq 9 4 - (1 + e) * qq 9 4 = 0 - qq 9 4 * e)%Qc. ring. }
  assert (T1 : fleb (edgy e) f0 = false).
  { destruct (fleb (edgy e) f0) eqn:X; auto. exfalso. assert (Y : fle (qq 9 4) f0) by (eapply fle_trans; [apply flt_fle; exact T0|exact X]). vm_compute in Y. discriminate. }
  assert (A9 : fabs (qq 9 4) = qq 9 4) by (apply fabs_pos; vm_compute; reflexivity).
  assert (T2 : fleb (edgy e) (fabs (qq 9 4)) = false).
  { rewrite A9. destruct (fleb (edgy e) (qq 9 4)) eqn:X; auto. exfalso. exact (flt_ne QcF _ _ (flt_fle_trans QcF _ _ _ T0 X) eq_refl). }
  assert (Ye : at_ y [2; 0] = qz 20).
  { rewrite (sharpened_value QcF _ _ _ _ _ R4 _ V), Eb. unfold boost. rewrite T1, T2. cbn [orb]. apply Qc_is_canon. vm_compute. reflexivity. }
  exists y, y'. do 2 (split; [assumption|]). split; [exact copies34|]. split; [exact x34_51|]. split; [exact R3|]. split; [exact F1|]. split; [exact Ye|].
  rewrite (F3 _ V), Ye. cbn [at_ mask um_amount um_threshold]. rewrite Eb. fold (edgy e). unfold cut. rewrite T1.
  assert (T3 : fleb (edgy e) (fabs (edgy e)) = true).
  { rewrite fabs_pos; [apply fle_refl|]. apply flt_fle. now apply fleb_false. }
  rewrite T3. replace (at_ x34 [2; 0]) with (qz 20) by (apply Qc_is_canon; vm_compute; reflexivity). change (qz 20 + qz 2 * edgy e - qz 20 = qz 2 * edgy e)%Qc. ring.
Qed.
(** A tenth of relative error and a Gaussian-like blur of x34: the bound of C148_mean. *)
Example C148_example : fle f0 (qq 1 10) /\
  sharpens 16 (blurA None) (Some (evenp 0 MReplicate)) x34 AxNone [0; 1]%nat [kerA; kerA] (evenp 0 MReplicate) [MReplicate; MReplicate] /\
  unsharp_init (blurA None) BSep (qz 2) f0 (Some (evenp 0 MReplicate)) = Ok (mask (qz 2) f0) /\ every_axis 2 (evenp 0 MReplicate) (copy_mode (qz 51)) /\ bounded (qz 51) x34 /\
  (forall k v, In k [kerA; kerA] -> In v k -> fle f0 v) /\ (forall k, In k [kerA; kerA] -> k = [] \/ wsum k = f1) /\
  (exists y', fl_unsharp (qq 1 10) 16 garbage (mask (qz 2) f0) x34 AxNone y' /\ at_ y' [2; 0] = qq 499 20) /\
  show (snd (unsharp_forward 16 garbage (mask (qz 2) f0) x34 AxNone)) =
    Some ([3; 4], [-5 # 8; -1 # 8; 9 # 8; 69 # 8; -51 # 8; -63 # 8; -49 # 8; -69 # 8; 49 # 2; 77 # 2; 78; 72]%Q) /\
  (roundings [kerA; kerA] + 3 = 11)%nat.
Proof.
  split; [vm_compute; reflexivity|]. split; [exact sharpens34|]. split; [reflexivity|]. split; [exact copies34|]. split; [exact x34_51|].
  split; [apply kerA_mean|]. split; [apply kerA_mean|]. split; [|split; [vm_compute; reflexivity|reflexivity]].
  pose proof sharpens34 as SH. assert (HI : unsharp_init (blurA None) BSep (qz 2) f0 (Some (evenp 0 MReplicate)) = Ok (mask (qz 2) f0)) by reflexivity.
  destruct (sharpens_run QcF 16 garbage _ _ _ _ _ _ _ _ _ _ _ SH HI) as [_ [b [y [R1 [R2 [R3 R4]]]]]].
  assert (V : valid (shp x34) [2; 0]) by (vm_compute; repeat constructor; intros H; discriminate H).
  destruct (unsharp_last QcF (qq 1 10) 16 garbage (mask (qz 2) f0) x34 b (mkT (shp x34) (fun i => fmul (qq 11 10) (fsub (at_ x34 i) (at_ b i)))) AxNone [0; 1]) as [y' [F1 [F2 F3]]]; auto.
  { vm_compute. reflexivity. }
  { intros i _. cbn [at_]. unfold rounds. set (v := fsub (at_ x34 i) (at_ b i)). replace (fsub (fmul (qq 11 10) v) v) with (fmul (qq 1 10) v).
    - rewrite fabs_mul. replace (fabs (qq 1 10)) with (qq 1 10) by (apply Qc_is_canon; vm_compute; reflexivity). apply fle_refl.
    - replace (qq 11 10) with (fadd (qq 1 10) (@f1 QcF)) by (apply Qc_is_canon; vm_compute; reflexivity). change (qq 1 10 * v = (qq 1 10 + 1) * v - v)%Qc. ring. }
  exists y'. split; [exact F1|]. rewrite (F3 _ V). cbn [at_ mask um_amount um_threshold]. rewrite (diff34 _ _ R1). apply Qc_is_canon. vm_compute. reflexivity.
Qed.
