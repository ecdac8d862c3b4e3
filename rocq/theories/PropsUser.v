(** C98: user-supplied padding functions.

    Vocabulary (UserFun.v; PropsPad.v):
    - [keeps f]: called on a buffer with a box h..t of known values that is not empty along axis a,
      f succeeds and leaves shape and box alone (it may write anything elsewhere);
    - [determined f]: the values after the call on the lines along a through the box depend only
      on the values in the box;
    - [extends f e]: on those lines f writes the extension e of the line;
    - [all_fine_or_fun]: every padded axis has nonnegative widths and a built-in mode as in
      [all_fine], or a function that [keeps] and a nonempty axis;
    - [pad_call], [full_shape], [axis_par], [params]: as there. *)
From Verif Require Import ExampleUtil IndexLemmas UserFun.
Open Scope Z_scope.

(** ** C98: with padding functions that respect the known box, the output has the documented shape
    and contains the original; if they are determined by it, no uninitialised value is visible. *)
Theorem C98_block : forall (F : ofield) fuel junk (p : padder F) (x : tensor F) ax al,
  pad_call fuel p x ax al -> all_fine_or_fun F p x al ->
  exists y, padder_forward fuel junk p x ax = Ok y /\ shp y = full_shape p al (shp x) /\
    forall i, valid (shp x) i ->
      at_ y (map (fun d => nth d i 0 + match axis_par p (last_axes p al) d with Some q => ap_before q | None => 0 end)
                 (seq 0 (ndim x))) = at_ x i.
Proof. exact user_block. Qed.
Print Assumptions C98_block.
Theorem C98_no_uninitialised_memory : forall (F : ofield) fuel junk1 junk2 (p : padder F) (x : tensor F) ax al,
  pad_call fuel p x ax al -> all_fine_or_fun F p x al ->
  (forall a q, axis_par p (last_axes p al) a = Some q -> is_empty_mode F (ap_mode q) = false) ->
  (forall a q f, axis_par p (last_axes p al) a = Some q -> ap_mode q = MFun f -> determined f) ->
  exists y1 y2, padder_forward fuel junk1 p x ax = Ok y1 /\ padder_forward fuel junk2 p x ax = Ok y2 /\ teq y1 y2.
Proof. exact user_no_junk. Qed.
Print Assumptions C98_no_uninitialised_memory.
Theorem C98_extension : forall (F : ofield) fuel junk (p : padder F) (x : tensor F) ax a q f e,
  pad_call fuel p x ax [a] -> params p 0 = Some q ->
  0 <= ap_before q -> 0 <= ap_after q -> 0 < ap_before q + ap_after q -> 1 <= nth a (shp x) 0 ->
  ap_mode q = MFun f -> extends F f e ->
  (forall n g g' t, (forall u, 0 <= u < n -> g u = g' u) -> e n g t = e n g' t) ->
  exists y, padder_forward fuel junk p x ax = Ok y /\ shp y = upd a (ap_before q + nth a (shp x) 0 + ap_after q) (shp x) /\
    forall j, valid (shp y) j -> at_ y j = e (nth a (shp x) 0) (fun u => at_ x (upd a u j)) (nth a j 0 - ap_before q).
Proof. exact user_one_axis. Qed.
Print Assumptions C98_extension.

(** A function that writes the distance to the box: ..., 2, 1, x_0, ..., x_(n-1), 1, 2, ... *)
Definition dist_1d (y : tensor QcF) (idx : list slice) (dim : nat) : res (tensor QcF) :=
  ht <- head_tail idx dim ;;
  Ok (mkT (shp y) (fun j => let k := nth dim j 0 in
    if k <? fst ht then qz (fst ht - k) else if k <? snd ht then at_ y j else qz (k - snd ht + 1))).
Definition ext_dist (n : Z) (g : Z -> QcF) (t : Z) : QcF := if t <? 0 then qz (- t) else if t <? n then g t else qz (t - n + 1).
Lemma dist_call (y : tensor QcF) h t a : (a < ndim y)%nat -> box h t (shp y) -> dist_1d y (map2 srng h t) a =
  Ok (mkT (shp y) (fun j => let k := nth a j 0 in
    if k <? nth a h 0 then qz (nth a h 0 - k) else if k <? nth a t 0 then at_ y j else qz (k - nth a t 0 + 1))).
Proof.
  intros Ha [L1 [L2 _]]. unfold ndim in Ha. unfold dist_1d.
  rewrite (head_tail_nth (map2 srng h t) a (nth a h 0) (nth a t 0)).
  - reflexivity.
  - rewrite map2_length_eq; lia.
  - rewrite nth_map2 with (da := 0) (db := 0); auto; lia.
Qed.
Lemma dist_keeps : keeps dist_1d.
Proof.
  intros y h t a Ha B _. eexists. split; [now apply dist_call|]. split; [reflexivity|]. intros j V I. cbn [at_].
  specialize (I a ltac:(rewrite (valid_length _ _ V); exact Ha)).
  destruct (Z.ltb_spec (nth a j 0) (nth a h 0)); [lia|]. destruct (Z.ltb_spec (nth a j 0) (nth a t 0)); [auto|lia].
Qed.
Lemma dist_determined : determined dist_1d.
Proof.
  intros y1 y2 y1' y2' h t a Ha S12 B _ Eq H1 H2 j V I. rewrite dist_call in H1, H2; auto.
  2, 3: unfold ndim in *; rewrite <- S12; auto. injection H1 as <-. injection H2 as <-. cbn [at_].
  destruct (Z.ltb_spec (nth a j 0) (nth a h 0)); auto. destruct (Z.ltb_spec (nth a j 0) (nth a t 0)); auto.
  apply Eq; auto. intros d Hd. destruct (Nat.eq_dec d a) as [->|N]; [lia|]. now apply I.
Qed.
Lemma dist_extends : extends QcF dist_1d ext_dist.
Proof.
  intros y h t a Ha B _. eexists. split; [now apply dist_call|]. split; [reflexivity|]. intros j V I. cbn [at_]. unfold ext_dist.
  destruct (Z.ltb_spec (nth a j 0) (nth a h 0)), (Z.ltb_spec (nth a j 0 - nth a h 0) 0); try lia; [f_equal; lia|].
  destruct (Z.ltb_spec (nth a j 0) (nth a t 0)), (Z.ltb_spec (nth a j 0 - nth a h 0) (nth a t 0 - nth a h 0)); try lia; [|f_equal; lia].
  f_equal. replace (nth a h 0 + (nth a j 0 - nth a h 0)) with (nth a j 0) by lia. symmetry. apply upd_nth.
Qed.
Example C98_example : let p := pad2 (1, 0) (2, 3) MReplicate (MFun dist_1d) in
  pad_call 20 p x23 AxNone [0; 1]%nat /\ all_fine_or_fun QcF p x23 [0; 1]%nat /\ determined dist_1d /\
  full_shape p [0; 1]%nat (shp x23) = [3; 8] /\
  show (padder_forward 20 garbage p x23 AxNone) =
    Some ([3; 8], zq [2; 1; 1; 2; 4; 1; 2; 3; 2; 1; 1; 2; 4; 1; 2; 3; 2; 1; 10; 20; 40; 1; 2; 3]).
Proof.
  split; [ex_call|]. split.
  { intros a [<-|[<-|[]]]; (eexists; split; [reflexivity|]).
    - left. split; [cbn; lia|]. split; [cbn; lia|]. right. right. split; [left; cbn; lia|eexists; reflexivity].
    - right. split; [cbn; lia|]. split; [cbn; lia|]. split; [cbn; lia|]. exists dist_1d. split; [reflexivity|apply dist_keeps]. }
  split; [apply dist_determined|]. split; vm_compute; reflexivity.
Qed.
Example C98_extension_example : let p := pad1d (2, 3) (MFun dist_1d) in
  pad_call 20 p x23 (AxInt 1) [1%nat] /\ extends QcF dist_1d ext_dist /\
  (forall n g g' t, (forall u, 0 <= u < n -> g u = g' u) -> ext_dist n g t = ext_dist n g' t) /\
  show (padder_forward 20 garbage p x23 (AxInt 1)) = Some ([2; 8], zq [2; 1; 1; 2; 4; 1; 2; 3; 2; 1; 10; 20; 40; 1; 2; 3]).
Proof.
  split; [ex_call|]. split; [apply dist_extends|]. split; [|vm_compute; reflexivity].
  intros n g g' t H. unfold ext_dist. destruct (Z.ltb_spec t 0); auto. destruct (Z.ltb_spec t n); auto.
Qed.
(** A function that overwrites the box is not excluded by the code: the original is lost. *)
Example C98_hypothesis_needed : let bad := fun (y : tensor QcF) (_ : list slice) (_ : nat) => Ok (mkT (shp y) (fun _ => qz 9)) in
  ~ keeps bad /\ show (padder_forward 20 garbage (pad1d (1, 0) (MFun bad)) x23 (AxInt 1)) = Some ([2; 4], zq [9; 9; 9; 9; 9; 9; 9; 9]).
Proof.
  split; [|vm_compute; reflexivity]. intros K. destruct (K x23 [0; 0] [2; 3] 1%nat) as [y' [E [_ H]]].
  - cbn. lia.
  - split; [reflexivity|]. split; [reflexivity|]. intros [|[|d]] Hd; cbn in *; lia.
  - cbn. lia.
  - injection E as <-. specialize (H [0; 0]). cbn [at_] in H.
    assert (C : qz 9 = at_ x23 [0; 0]). { apply H; [repeat constructor; cbn; lia|]. intros [|[|d]] Hd; cbn in *; lia. }
    apply (f_equal Qcanon.this) in C. vm_compute in C. discriminate.
Qed.
