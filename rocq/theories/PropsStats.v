(** C152: describe of two images.

    Vocabulary (PadMono.v, StatsMono.v):
    - [below x y]: images of one shape, no pixel of x above that of y; [close d x y]: corresponding pixels differ by at most d;
    - [desc_below d a b]: mean, minimum, quartiles, median and maximum of a exceed those of b by at most d;
    - [elems x]: the pixels of x. *)
From Coq Require Import QArith Qcanon Reals Lra.
From Verif Require Import StatsMono PropsExtra ExampleUtil IndexLemmas.
Open Scope Z_scope.

Theorem C152_order : forall (F : ofield) (root : F -> F) (x y : tensor F) a, below x y -> describe root x = Ok a -> exists b, describe root y = Ok b /\
  fle (d_mean a) (d_mean b) /\ fle (d_min a) (d_min b) /\ fle (d_25 a) (d_25 b) /\ fle (d_50 a) (d_50 b) /\ fle (d_75 a) (d_75 b) /\ fle (d_max a) (d_max b).
Proof. exact describe_below. Qed.
Print Assumptions C152_order.
(** A change of every pixel by at most d changes no entry but the standard deviation by more than d. *)
Theorem C152_close : forall (F : ofield) (root : F -> F) d (x y : tensor F) a, fle f0 d -> close d x y -> describe root x = Ok a ->
  exists b, describe root y = Ok b /\ desc_below d a b /\ desc_below d b a.
Proof. exact describe_close. Qed.
Print Assumptions C152_close.
(** The standard deviation of a sum is at most the sum of the standard deviations. *)
Theorem C152_std : forall (x y z : tensor RF) a b, shp y = shp x -> shp z = shp x -> (forall i, valid (shp x) i -> at_ z i = (at_ x i + at_ y i)%R) ->
  (2 <= length (elems x))%nat -> describe (F:=RF) sqrt x = Ok a -> describe (F:=RF) sqrt y = Ok b ->
  exists c u v w, describe (F:=RF) sqrt z = Ok c /\ d_mean c = (d_mean a + d_mean b)%R /\ d_std a = Some u /\ d_std b = Some v /\ d_std c = Some w /\ (w <= u + v)%R.
Proof. exact std_triangle. Qed.
Print Assumptions C152_std.

(** The standard deviation does not keep the order, and can change by more than d: the entry shown is its square, 8 > 2 * 2. *)
Theorem C152_std_differs : exists x y z : tensor QcF, below x y /\ close (qz 2) x z /\
  shown (describe (fun v => v) x) = Some [2; 8; 0; 1; 2; 3; 4]%Q /\ shown (describe (fun v => v) y) = Some [4; 0; 4; 4; 4; 4; 4]%Q /\
  shown (describe (fun v => v) z) = Some [2; 0; 2; 2; 2; 2; 2]%Q.
Proof.
  exists (ofz [2] [0; 4]), (ofz [2] [4; 4]), (ofz [2] [2; 2]).
  assert (V : forall i, valid [2] i -> i = [0] \/ i = [1]).
  { intros i V. apply valid1 in V as [k [-> Hk]]. assert (k = 0 \/ k = 1) as [->| ->] by lia; auto. }
  split; [split; [reflexivity|]; intros i Hi; apply V in Hi as [->| ->]; vm_compute; reflexivity|].
  split; [split; [reflexivity|]; intros i Hi; apply V in Hi as [->| ->]; split; vm_compute; reflexivity|].
  split; [|split]; vm_compute; reflexivity.
Qed.
Print Assumptions C152_std_differs.
Example C152_example : below x4 (ofz [2; 2] [5; 1; 12; 4]) /\ close (qz 2) x4 (ofz [2; 2] [5; 1; 12; 4]) /\
  shown (describe (fun v => v) x4) = Some [17 # 4; 65 # 4; 1; 7 # 4; 3; 11 # 2; 10]%Q /\
  shown (describe (fun v => v) (ofz [2; 2] [5; 1; 12; 4])) = Some [11 # 2; 65 # 3; 1; 13 # 4; 9 # 2; 27 # 4; 12]%Q.
Proof.
  assert (V : forall i, valid [2; 2] i -> i = [0; 0] \/ i = [0; 1] \/ i = [1; 0] \/ i = [1; 1]).
  { intros i V. apply valid2 in V as [k [k' [-> [Hk Hk']]]].
    assert (k = 0 \/ k = 1) as [->| ->] by lia; assert (k' = 0 \/ k' = 1) as [->| ->] by lia; tauto. }
  split; [split; [reflexivity|]; intros i Hi; apply V in Hi as [->|[->|[->| ->]]]; vm_compute; reflexivity|].
  split; [split; [reflexivity|]; intros i Hi; apply V in Hi as [->|[->|[->| ->]]]; split; vm_compute; reflexivity|].
  split; vm_compute; reflexivity.
Qed.
Example C152_std_example : exists (x y z : tensor RF) a b, shp x = [2] /\ shp y = shp x /\ shp z = shp x /\ (forall i, valid (shp x) i -> at_ z i = (at_ x i + at_ y i)%R) /\
  length (elems x) = 2%nat /\ describe (F:=RF) sqrt x = Ok a /\ describe (F:=RF) sqrt y = Ok b /\ elems x = [0; 4]%R /\ elems y = [1; -2]%R.
Proof.
  exists (mkT [2] (fun i => if hd 0 i =? 0 then 0%R else 4%R)), (mkT [2] (fun i => if hd 0 i =? 0 then 1%R else (-2)%R)), (mkT [2] (fun i => if hd 0 i =? 0 then 1%R else 2%R)).
  do 2 eexists. do 3 (split; [reflexivity|]). split; [intros i _; cbn [at_]; destruct (hd 0 i =? 0); lra|].
  split; [reflexivity|]. split; [apply describe_some; discriminate|]. split; [apply describe_some; discriminate|]. split; reflexivity.
Qed.
