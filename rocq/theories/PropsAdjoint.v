(** C116-C117: reversing the kernel transposes the filter; what filters and edge filters do to the sum of an image.

    Vocabulary (FilterAdjoint.v; PropsPool.v, PropsMirror.v, PropsPool2.v):
    - [bsum sh f]: the sum of f over all indices of an image of shape sh;
    - [eff_kernel k]: k, or (1) for the empty kernel, which leaves the axis alone; [klen]: its length;
    - [adjoint_axes al ms kers]: every kernel has odd length, and every axis is padded circularly, or symmetrically
      with a kernel that reads the same backwards;
    - [gain k]: the sum of the kernel, 1 for the empty kernel; [fprod]: the product of a list. *)
From Coq Require Import QArith Qcanon.
From Verif Require Import FilterAdjoint PropsMirror PropsPool2 PropsEdge PropsEdge3 EdgeExample ExampleUtil IndexLemmas.
Open Scope Z_scope.

(** ** C116: the filter with reversed kernels is the transpose: <filter x, y> = <x, filter' y>. *)
Theorem C116_adjoint : forall (F : ofield) fuel junk fuel' junk' (f g : pool F) (x y : tensor F) ax al kers p p' ms,
  built (length al) kers (repeat 1 (length al)) (Some p) f -> built (length al) (map (@rev F) kers) (repeat 1 (length al)) (Some p') g ->
  same_call F fuel p x ax al ms kers (repeat 1 (length al)) -> same_call F fuel' p' y ax al ms (map (@rev F) kers) (repeat 1 (length al)) ->
  shp y = shp x ->
  (forall r, (r < length al)%nat -> Z.odd (klen (eff_kernel (nth r kers []))) = true /\
     (nth r ms MUnknown = MCircular \/ nth r ms MUnknown = MSymmetric /\ rev (nth r kers []) = nth r kers [])) ->
  exists u v, snd (sep_forward fuel junk f x ax) = Ok u /\ snd (sep_forward fuel' junk' g y ax) = Ok v /\ shp u = shp x /\ shp v = shp x /\
    bsum (shp x) (fun i => fmul (at_ u i) (at_ y i)) = bsum (shp x) (fun i => fmul (at_ x i) (at_ v i)).
Proof. exact filter_adjoint. Qed.
Print Assumptions C116_adjoint.
(** The sum of the filtered image is the sum of the image times the sums of the kernels. *)
Theorem C116_total : forall (F : ofield) fuel junk (f : pool F) (x : tensor F) ax al kers p ms,
  built (length al) kers (repeat 1 (length al)) (Some p) f -> same_call F fuel p x ax al ms kers (repeat 1 (length al)) ->
  (forall r, (r < length al)%nat -> Z.odd (klen (eff_kernel (nth r kers []))) = true /\
     (nth r ms MUnknown = MCircular \/ nth r ms MUnknown = MSymmetric /\ rev (nth r kers []) = nth r kers [])) \/ ms = repeat MCircular (length al) ->
  exists u, snd (sep_forward fuel junk f x ax) = Ok u /\ shp u = shp x /\
    bsum (shp x) (at_ u) = fmul (EdgeLinear.fprod (map gain kers)) (bsum (shp x) (at_ x)).
Proof. exact filter_total. Qed.
Print Assumptions C116_total.
Definition symm k := pl k 1 (Some (sym (0, 0) MSymmetric)).
Example C116_example :
  built 1 [k123] (repeat 1 1) (Some (sym (0, 0) MCircular)) (circ k123) /\ built 1 (map (@rev QcF) [k123]) (repeat 1 1) (Some (sym (0, 0) MCircular)) (circ k321) /\
  same_call QcF 9 (sym (0, 0) MCircular) x3 (AxInt 0) [0%nat] (repeat MCircular 1) [k123] (repeat 1 1) /\
  same_call QcF 9 (sym (0, 0) MCircular) r3 (AxInt 0) [0%nat] (repeat MCircular 1) [k321] (repeat 1 1) /\
  Z.odd (klen (eff_kernel k123)) = true /\
  show (snd (sep_forward 9 garbage (circ k123) x3 (AxInt 0))) = Some ([3], zq [12; 17; 13]) /\
  show (snd (sep_forward 9 garbage (circ k321) r3 (AxInt 0))) = Some ([3], zq [13; 17; 12]) /\
  built 1 [k131] (repeat 1 1) (Some (sym (0, 0) MSymmetric)) (symm k131) /\
  same_call QcF 9 (sym (0, 0) MSymmetric) x3 (AxInt 0) [0%nat] [MSymmetric] [k131] (repeat 1 1) /\ rev k131 = k131 /\
  show (snd (sep_forward 9 garbage (symm k131) x3 (AxInt 0))) = Some ([3], zq [6; 11; 18]).
Proof.
  split; [apply pl_built; [discriminate|lia]|]. split; [apply pl_built; [discriminate|lia]|].
  split; [apply sym_call; [lia|unfold klen; cbn; lia|exact I]|].
  split. { destruct (sym_call k321 1 MCircular ltac:(lia) ltac:(unfold klen; cbn; lia) I). split; auto; ex_on. }
  split; [reflexivity|].
  split; [vm_compute; reflexivity|]. split; [vm_compute; reflexivity|]. split; [apply pl_built; [discriminate|lia]|].
  split; [apply sym_call; [lia|unfold klen; cbn; lia|exact I]|].
  split; [reflexivity|]. vm_compute; reflexivity.
Qed.
Lemma indices_tindices sh : indices sh = tindices sh.
Proof. induction sh as [|n r IH]; [reflexivity|]. cbn [indices tindices]. now rewrite IH. Qed.
Lemma lsum_this (l : list QcF) : (this (lsum l) == fold_right Qplus 0 (map this l))%Q.
Proof.
  unfold lsum. induction l as [|v l IH]; [reflexivity|]. cbn [fold_right map].
  change (Qred (this v + this (fold_right fadd f0 l)) == this v + fold_right Qplus 0 (map this l))%Q. rewrite Qred_correct. now rewrite <- IH.
Qed.
Lemma show_total y sh l : show (Ok y) = Some (sh, l) -> shp y = sh /\ (this (bsum sh (at_ y)) == fold_right Qplus 0 l)%Q.
Proof.
  cbn [show]. intros H. assert (E1 : shp y = sh) by congruence. split; auto. rewrite E1 in H.
  assert (E2 : map (fun i => Qcanon.this (at_ y i)) (indices sh) = l) by congruence. subst l.
  assert (B : bsum sh (at_ y) = lsum (map (at_ y) (tindices sh))) by apply bsum_lsum.
  change (this (bsum sh (at_ y)) == fold_right Qplus 0 (map (fun i => this (at_ y i)) (indices sh)))%Q.
  pose proof (lsum_this (map (at_ y) (tindices sh))) as L. rewrite map_map in L. rewrite indices_tindices.
  eapply Qeq_trans; [|exact L]. apply (f_equal this) in B. match type of B with ?l = _ => match goal with |- (?l' == _)%Q => change l' with l end end. rewrite B. apply Qeq_refl.
Qed.
(** With reflect padding (which counts the border sample once) the sum changes: 34, not 5 * 7. *)
Theorem C116_reflect_differs : exists (f : pool QcF) y,
  built 1 [k131] (repeat 1 1) (Some (sym (0, 0) MReflect)) f /\ same_call QcF 9 (sym (0, 0) MReflect) x3 (AxInt 0) [0%nat] [MReflect] [k131] (repeat 1 1) /\
  snd (sep_forward 9 garbage f x3 (AxInt 0)) = Ok y /\ bsum (shp x3) (at_ y) <> fmul (EdgeLinear.fprod (map gain [k131])) (bsum (shp x3) (at_ x3)).
Proof.
  exists (pl k131 1 (Some (sym (0, 0) MReflect))).
  assert (S : show (snd (sep_forward 9 garbage (pl k131 1 (Some (sym (0, 0) MReflect))) x3 (AxInt 0))) = Some ([3], zq [7; 11; 16])) by (vm_compute; reflexivity).
  destruct (snd (sep_forward 9 garbage (pl k131 1 (Some (sym (0, 0) MReflect))) x3 (AxInt 0))) as [y|]; [|discriminate]. exists y.
  split; [apply pl_built; [discriminate|lia]|]. split; [apply sym_call; [lia|unfold klen; cbn; lia|exact I]|]. split; [reflexivity|].
  destruct (show_total y _ _ S) as [S1 S2]. intros H. change (shp x3) with [3] in H. rewrite H in S2.
  revert S2. vm_compute. discriminate.
Qed.
Print Assumptions C116_reflect_differs.

(** ** C117: with circular padding every edge image sums to the sum of the image times the sums of the kernels; so for
    the named filters, whose edge kernels sum to zero, it sums to zero. *)
Theorem C117_component : forall (F : ofield) (trunc : F -> Z) fuel junk ker smooth raw normalize p m shared (e : edge_filter F) (x : tensor F) ea ax ax' a al k,
  edge_init (NItem ker) smooth normalize (Some p) shared = Ok e -> ker <> [] ->
  check_axes (Z.of_nat (ndim x)) ea = Ok [Z.of_nat a] -> In a al ->
  edge_image fuel p m x ax al k -> check_axes (Z.of_nat (ndim x)) ax' = Ok (map Z.of_nat al) -> klen ker <= k ->
  expand (length (without a al)) smooth = Some raw -> (forall s, In s raw -> klen s <= k) ->
  m = MCircular \/ m = MSymmetric /\ (forall s, In s (used_kernel trunc ker :: smoothers normalize raw) -> Z.odd (klen (eff_kernel s)) = true /\ rev s = s) ->
  exists y, snd (component trunc fuel junk e x ea ax') = Ok y /\ shp y = shp x /\
    bsum (shp x) (at_ y) = fmul (fmul (wsum (used_kernel trunc ker)) (EdgeLinear.fprod (map gain (smoothers normalize raw)))) (bsum (shp x) (at_ x)).
Proof. exact component_total. Qed.
Print Assumptions C117_component.
(** The Laplace filter also with symmetric padding (its kernels read the same backwards). *)
Theorem C117_named : forall (F : ofield) (trunc : F -> Z) fuel junk normalize p m shared (e : edge_filter F) (x : tensor F) ker smooth ea ax ax' a al,
  truncates trunc -> named normalize (Some p) shared e ker smooth ->
  check_axes (Z.of_nat (ndim x)) ea = Ok [Z.of_nat a] -> In a al ->
  edge_image fuel p m x ax al 5 -> check_axes (Z.of_nat (ndim x)) ax' = Ok (map Z.of_nat al) ->
  m = MCircular \/ m = MSymmetric /\ ker = laplace_kernel /\ smooth = [] ->
  exists y, snd (component trunc fuel junk e x ea ax') = Ok y /\ shp y = shp x /\ bsum (shp x) (at_ y) = f0.
Proof. exact named_component_total. Qed.
Print Assumptions C117_named.
Example C117_example : exists e l : edge_filter QcF,
  named true (Some (evenp 0 MCircular)) true e central_kernel (ints [1; 2; 1]) /\ edge_image 16 (evenp 0 MCircular) MCircular x34 AxNone [0; 1]%nat 5 /\
  named false (Some (evenp 0 MSymmetric)) true l laplace_kernel [] /\ edge_image 16 (evenp 0 MSymmetric) MSymmetric x34 AxNone [0; 1]%nat 5 /\
  truncates qtrunc /\
  show (snd (component qtrunc 16 garbage e x34 (AxInt 1) AxNone)) =
    Some ([3; 4], [-19 # 2; 21 # 2; 19 # 2; -21 # 2; -37 # 4; 45 # 4; 37 # 4; -45 # 4; -53 # 4; 69 # 4; 53 # 4; -69 # 4]%Q) /\
  show (snd (component qtrunc 16 garbage l x34 (AxInt 1) AxNone)) = Some ([3; 4], zq [1; 1; 2; -4; 2; 2; -3; -1; 10; 10; -19; -1]).
Proof.
  destruct (named_ok QcF true (Some (evenp 0 MCircular)) true) as [[e He] _].
  destruct (named_ok QcF false (Some (evenp 0 MSymmetric)) true) as [_ [_ [_ [_ [l Hl]]]]]. exists e, l.
  split; [now apply n_sobel|]. split; [apply even34; [exact I|lia]|]. split; [now apply n_laplace|]. split; [apply even34; [exact I|lia]|].
  split; [apply qtrunc_ok|].
  rewrite (get_ok filter0 _ _ He), (get_ok filter0 _ _ Hl). clear He Hl. split; vm_compute; reflexivity.
Qed.
(** With symmetric padding the differences of Sobel's filter do not cancel: the sum is that of the differences between
    the two borders. *)
Theorem C117_symmetric_differs : exists (e : edge_filter QcF) y,
  named false (Some (evenp 0 MSymmetric)) true e central_kernel (ints [1; 2; 1]) /\ edge_image 16 (evenp 0 MSymmetric) MSymmetric x34 AxNone [0; 1]%nat 5 /\
  snd (component qtrunc 16 garbage e x34 (AxInt 1) AxNone) = Ok y /\ shp y = [3; 4] /\ bsum [3; 4] (at_ y) = qz 360.
Proof.
  destruct (named_ok QcF false (Some (evenp 0 MSymmetric)) true) as [[e He] _]. exists e.
  assert (S : show (snd (component qtrunc 16 garbage e x34 (AxInt 1) AxNone)) = Some ([3; 4], zq [5; 15; 23; 13; 15; 45; 37; 7; 32; 96; 68; 4])).
  { rewrite (get_ok filter0 _ _ He). clear He. vm_compute. reflexivity. }
  destruct (snd (component qtrunc 16 garbage e x34 (AxInt 1) AxNone)) as [y|]; [|discriminate]. exists y.
  split; [now apply n_sobel|]. split; [apply even34; [exact I|lia]|]. split; [reflexivity|].
  destruct (show_total y _ _ S) as [S1 S2]. split; [exact S1|]. apply Qc_is_canon. now rewrite S2.
Qed.
Print Assumptions C117_symmetric_differs.
