(** C135: the in-place copies of the padding functions never read what they are overwriting.

    Vocabulary (AliasModel.v, AliasProofs.v):
    - [padder_forward_cp cp], [pad_axis_cp cp]: Padder.forward and Padder.pad_axis with the assignments
      [x[dst] = x[src]] between two views of one tensor done by [cp];
    - [plain_copy]: read all, then write (this is what [padder_forward] does);
      [copy_in_order ord]: element after element in the same memory, in the order [ord];
      [checked_copy]: raises RuntimeError when the two regions have a common element;
    - [apart]: on one axis the two ranges have no common element;
    - [faithful cp]: cp is [plain_copy] for regions that are [apart], and arbitrary for the others;
    - [calm p]: no negative width; user-supplied functions keep the shape and treat equal tensors equally;
    - [rsim teq]: both calls raise the same error, or both return equal tensors. *)
From Verif Require Import ExampleUtil AliasProofs.
Open Scope Z_scope.

Theorem C135_forward : forall (F : ofield) cp, faithful cp -> forall fuel junk (p : padder F) (x : tensor F) ax, calm p -> nonneg (shp x) ->
  rsim teq (padder_forward_cp cp fuel junk p x ax) (padder_forward fuel junk p x ax).
Proof. exact forward_any_copy. Qed.
Print Assumptions C135_forward.
Theorem C135_pad_axis : forall (F : ofield) cp, faithful cp -> forall fuel junk (p : padder F) (x : tensor F) i ax, calm p -> nonneg (shp x) ->
  rsim teq (pad_axis_cp cp fuel junk p x i ax) (pad_axis fuel junk p x i ax).
Proof. exact axis_any_copy. Qed.
Print Assumptions C135_pad_axis.
Theorem C135_any_order : forall (F : ofield) ord fuel junk (p : padder F) (x : tensor F), (forall l i, In i (ord l) <-> In i l) -> calm p -> nonneg (shp x) ->
  (forall ax, rsim teq (padder_forward_cp (copy_in_order ord) fuel junk p x ax) (padder_forward fuel junk p x ax)) /\
  (forall i ax, rsim teq (pad_axis_cp (copy_in_order ord) fuel junk p x i ax) (pad_axis fuel junk p x i ax)).
Proof. exact pad_any_order. Qed.
Print Assumptions C135_any_order.
Theorem C135_no_overlap : forall (F : ofield) fuel junk (p : padder F) (x : tensor F), calm p -> nonneg (shp x) ->
  (forall ax, rsim teq (padder_forward_cp checked_copy fuel junk p x ax) (padder_forward fuel junk p x ax)) /\
  (forall i ax, rsim teq (pad_axis_cp checked_copy fuel junk p x i ax) (pad_axis fuel junk p x i ax)).
Proof. exact pad_no_overlap. Qed.
Print Assumptions C135_no_overlap.
Theorem C135_constructed : forall (F : ofield) w m c e s (p : padder F), padder_init w m c e s = Ok p ->
  (forall i f, nds_get m i = Ok (MFun f) -> well_behaved f) -> calm p.
Proof. exact init_calm. Qed.
Print Assumptions C135_constructed.

Definition one23 : padder QcF := pad2 (3, 4) (2, 5) MCircular MReflect.
Lemma one23_calm : calm one23.
Proof.
  split; intros i; unfold one23, pad2; cbn [p_width p_mode nds_get]; unfold pyidx; destruct (_ && _); try discriminate;
    (destruct (Z.to_nat _) as [|[|k]]; cbn; intros u E; [inversion E; cbn; lia|inversion E; cbn; lia|destruct k; discriminate]).
Qed.
Example C135_example :
  calm one23 /\ nonneg (shp x23) /\ (forall l i, In i (rev l) <-> In i (l : list (list Z))) /\
  show (padder_forward_cp (copy_in_order (@rev _)) 20 garbage one23 x23 AxNone) = show (padder_forward 20 garbage one23 x23 AxNone) /\
  (exists s, show (padder_forward_cp checked_copy 20 garbage one23 x23 AxNone) = Some ([9; 10], s)).
Proof.
  split; [exact one23_calm|]. split; [repeat constructor; lia|]. split; [intros l i; rewrite <- in_rev; tauto|]. split; [vm_compute; reflexivity|].
  eexists. vm_compute. reflexivity.
Qed.
(** Between regions that overlap the order matters. *)
Theorem C135_overlap_differs : exists (x : tensor QcF) dst src,
  show (copy_in_order (fun l => l) x dst src) <> show (copy_in_order (@rev _) x dst src) /\ checked_copy x dst src = Err RuntimeError /\
  show (plain_copy x dst src) = show (copy_in_order (@rev _) x dst src).
Proof.
  exists (ofz [4] [1; 2; 3; 4]), [srng 1 4], [srng 0 3]. split; [vm_compute; discriminate|]. split; vm_compute; reflexivity.
Qed.
Print Assumptions C135_overlap_differs.
