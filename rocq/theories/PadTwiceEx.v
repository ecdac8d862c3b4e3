(** Padding in two steps: modes and widths for which it differs from one padding. *)
From Verif Require Export ExampleUtil PadTwice.
Open Scope Z_scope.

Lemma indices_valid : forall s i, In i (indices s) -> valid s i.
Proof.
  induction s as [|n s IH]; intros i H; cbn in H.
  - destruct H as [<-|[]]. constructor.
  - apply in_flat_map in H as [k [Hk H]]. apply in_map_iff in H as [j [<- Hj]]. constructor; [now apply In_zrange|now apply IH].
Qed.
Lemma teq_show (s t : tensor QcF) : teq s t -> show (Ok s) = show (Ok t).
Proof. intros [S V]. cbn [show]. rewrite <- S. do 2 f_equal. apply map_ext_in. intros i Hi. rewrite V; auto. now apply indices_valid. Qed.

Definition line3 := ofz [3] [1; 2; 4].
Definition twice (p1 p2 : padder QcF) (x : tensor QcF) : res (tensor QcF) :=
  y <- padder_forward 20 garbage p1 x AxNone ;; padder_forward 20 garbage p2 y AxNone.
Lemma twice_differs p1 p2 p x : show (twice p1 p2 x) <> show (padder_forward 20 garbage p x AxNone) ->
  forall y z z', padder_forward 20 garbage p1 x AxNone = Ok y -> padder_forward 20 garbage p2 y AxNone = Ok z ->
      padder_forward 20 garbage p x AxNone = Ok z' -> ~ teq z z'.
Proof. intros H y z z' E1 E2 E3 E. apply H. unfold twice. rewrite E1. cbn [bind]. rewrite E2, E3. now apply teq_show. Qed.

Definition ap12 (w : Z * Z) (m : mode QcF) := mkAP (fst w) (snd w) m (qz 7, qz 8) (qz 0, qz 10) (Some 2, None).
(** One sample twice against two samples at once, before 1, 2, 4. *)
Lemma condition_needed : forall m : mode QcF,
  In m [MCircular; MPeriodize; MSymmetric; MReflect; MAntisymmetric; MOddReflect; MOddSymmetric; MLinearRamp; MStat SMean] ->
  exists fuel junk p1 p2 p (x : tensor QcF) q1 q2 q,
    one_axis fuel p x AxNone 0 q /\ ap_mode q = m /\ params p1 0 = Some q1 /\ params p2 0 = Some q2 /\ same_kind q q1 /\ same_kind q q2 /\
    0 <= ap_before q1 /\ 0 <= ap_after q1 /\ 0 <= ap_before q2 /\ 0 <= ap_after q2 /\
    ap_before q = ap_before q1 + ap_before q2 /\ ap_after q = ap_after q1 + ap_after q2 /\
    forall y z z', padder_forward fuel junk p1 x AxNone = Ok y -> padder_forward fuel junk p2 y AxNone = Ok z ->
      padder_forward fuel junk p x AxNone = Ok z' -> ~ teq z z'.
Proof.
  intros m Hm. exists 20%nat, garbage, (pad1d (1, 0) m), (pad1d (1, 0) m), (pad1d (2, 0) m), line3, (ap12 (1, 0) m), (ap12 (1, 0) m), (ap12 (2, 0) m).
  split; [ex_one|]. split; [reflexivity|]. split; [reflexivity|]. split; [reflexivity|].
  split; [repeat split|]. split; [repeat split|]. do 4 (split; [cbn; lia|]). split; [reflexivity|]. split; [reflexivity|].
  apply twice_differs.
  repeat (destruct Hm as [<-|Hm]; [vm_compute; discriminate|]). destruct Hm.
Qed.
(** Constants that differ between the axes: at the corners the last step decides. *)
Definition const2 (w1 w2 : Z * Z) : padder QcF :=
  mkPadder (NList [w1; w2]) (NItem MConstant) (NList [(qz 5, qz 5); (qz 6, qz 6)]) (NItem (qz 0, qz 0)) (NItem (None, None)) 2.
Lemma constants_differ : exists fuel junk (p1 p2 p : padder QcF) x al, pad_call fuel p x AxNone al /\
  all_axes p x al (fun q n => ap_mode q = MConstant /\ 1 <= n) /\ adds p1 p2 p al /\
  forall y z z', padder_forward fuel junk p1 x AxNone = Ok y -> padder_forward fuel junk p2 y AxNone = Ok z ->
      padder_forward fuel junk p x AxNone = Ok z' -> ~ teq z z'.
Proof.
  exists 20%nat, garbage, (const2 (0, 0) (1, 0)), (const2 (1, 0) (0, 0)), (const2 (1, 0) (1, 0)), x23, [0; 1]%nat.
  split; [ex_call|]. split; [|split].
  - intros d [<-|[<-|[]]]; eexists; (split; [reflexivity|]); cbn; repeat split; lia.
  - split; [reflexivity|]. split; [reflexivity|]. intros d q E. change (last_axes _ _) with [0; 1]%nat in *.
    destruct d as [|[|d]]; cbn in E; inv E; do 2 eexists; (split; [reflexivity|]); (split; [reflexivity|]); cbn; repeat split; lia.
  - apply twice_differs. vm_compute. discriminate.
Qed.
