(** C127: how padding and pooling calls end for every list of modes and every axis number.

    Vocabulary (AxisErrors.v; PropsPad.v, PropsMetricErr.v):
    - [fate p rest lost]: the first error of filling the axes of rest in order, if any: an unknown mode is a ValueError;
      once a "zeros" axis has been passed, any other filling mode is a TypeError; axes with widths (0, 0) and "empty" ones are passed;
    - [ends r o]: r is the error o, or a result if o is None;
    - [off_range nd a]: a is no index of a list of nd elements: a < -nd or nd <= a;
    - [looked_at p l]: how many of the axes, counted from the right, the padder looks at. *)
From Coq Require Import QArith Qcanon.
From Verif Require Import AxisErrors SsimRefute PropsMirror ExampleUtil.
Open Scope Z_scope.

(** ** C127 (modes): the outcome of Padder.forward, error by error. *)
Theorem C127_modes : forall (F : ofield) fuel junk (p : padder F) (x : tensor F) ax al,
  pad_call fuel p x ax al -> params_ok F p al ->
  (forall r q, (r < length (last_axes p al))%nat -> params p r = Some q -> no_user_fun F (ap_mode q)) ->
  (forall l1 a l2 q, last_axes p al = l1 ++ a :: l2 -> params p (length l2) = Some q ->
     (ap_before q = 0 /\ ap_after q = 0) \/ empty_ok (ap_mode q) = true \/ ap_mode q = MZeros \/ ap_mode q = MUnknown \/ 1 <= nth a (shp x) 0) ->
  ends (padder_forward fuel junk p x ax) (fate p (last_axes p al) false).
Proof. exact forward_ends. Qed.
Print Assumptions C127_modes.
Definition pf (m1 m2 m3 : mode QcF) : padder QcF :=
  mkPadder (NList [(1, 0); (0, 2); (1, 1)]) (NList [m1; m2; m3]) (NItem (qz 7, qz 8)) (NItem (qz 0, qz 10)) (NItem (Some 2, None)) 3.
Definition x222 := ofz [2; 2; 2] [1; 2; 3; 4; 5; 6; 7; 8].
Lemma pf_ok m1 m2 m3 : no_user_fun QcF m1 -> no_user_fun QcF m2 -> no_user_fun QcF m3 -> is_periodize m1 = false -> is_periodize m2 = false -> is_periodize m3 = false ->
  pad_call 9 (pf m1 m2 m3) x222 AxNone [0%nat; 1%nat; 2%nat] /\ params_ok QcF (pf m1 m2 m3) [0%nat; 1%nat; 2%nat] /\
  (forall r q, (r < 3)%nat -> params (pf m1 m2 m3) r = Some q -> no_user_fun QcF (ap_mode q)) /\
  forall a, In a [0%nat; 1%nat; 2%nat] -> 1 <= nth a (shp x222) 0.
Proof.
  intros N1 N2 N3 P1 P2 P3. split; [|split; [|split]].
  - split; [unfold ndim; cbn; lia | fin_nat | vm_compute; reflexivity | apply all_lt; vm_compute; reflexivity | repeat constructor; cbn; intuition lia |].
    intros d Hd. destruct m1; try discriminate; destruct m2; try discriminate; destruct m3; try discriminate; revert d Hd; fin_nat.
  - intros r Hr. change (r < 3)%nat in Hr. destruct r as [|[|[|r]]]; [| | |lia]; (eexists; split; [reflexivity|cbn; lia]).
  - intros [|[|[|r]]] q Hr E; [| | |lia]; injection E; intros; subst q; auto.
  - intros a [<-|[<-|[<-|[]]]]; cbn; lia.
Qed.
Example C127_modes_example :
  pad_call 9 (pf MReflect MZeros MCircular) x222 AxNone [0%nat; 1%nat; 2%nat] /\ params_ok QcF (pf MReflect MZeros MCircular) [0%nat; 1%nat; 2%nat] /\
  fate (pf MReflect MZeros MCircular) [0%nat; 1%nat; 2%nat] false = Some TypeError /\
  padder_forward 9 garbage (pf MReflect MZeros MCircular) x222 AxNone = Err TypeError /\
  padder_forward 9 garbage (pf MZeros MUnknown MCircular) x222 AxNone = Err ValueError /\
  padder_forward 9 garbage (pf MZeros MCircular MUnknown) x222 AxNone = Err TypeError /\
  option_map fst (show (padder_forward 9 garbage (pf MCircular MEmpty MZeros) x222 AxNone)) = Some [3; 4; 4] /\
  fate (pf MCircular MEmpty MZeros) [0%nat; 1%nat; 2%nat] false = None.
Proof.
  destruct (pf_ok MReflect MZeros MCircular) as (A & B & _); try exact I; try reflexivity.
  split; [exact A|]. split; [exact B|]. repeat split; vm_compute; reflexivity.
Qed.

(** ** C127 (padding): a number that is no axis is an IndexError where something is padded; an int below -ndim counts from the end once more. *)
Theorem C127_pad_off_range : forall (F : ofield) fuel junk (p : padder F) (x : tensor F) ax l,
  (0 < ndim x)%nat -> check_axes (Z.of_nat (ndim x)) ax = Ok l ->
  (forall r, (r < looked_at F p l)%nat -> params p r <> None) ->
  (exists r q, (r < looked_at F p l)%nat /\ params p r = Some q /\ (ap_before q, ap_after q) <> (0, 0) /\ off_range (ndim x) (nth (length l - 1 - r) l 0)) ->
  padder_forward fuel junk p x ax = Err IndexError.
Proof. exact pad_off_range. Qed.
Print Assumptions C127_pad_off_range.
Theorem C127_pad_int_wraps : forall (F : ofield) fuel junk (p : padder F) (x : tensor F) a,
  - Z.of_nat (ndim x) <= a < 0 -> (forall m, nds_get (p_mode p) (-1) = Ok m -> match m with MSmooth | MLinearRamp | MFun _ => False | _ => True end) ->
  padder_forward fuel junk p x (AxInt (a - Z.of_nat (ndim x))) = padder_forward fuel junk p x (AxInt a).
Proof. exact pad_int_wraps. Qed.
Print Assumptions C127_pad_int_wraps.
(** smooth and linear_ramp view their values by the axis number, so a negative one only serves widths up to one. *)
Theorem C127_pad_int_sloped : forall (F : ofield) fuel junk (p : padder F) (x : tensor F) a q,
  - Z.of_nat (ndim x) <= a < 0 -> (forall d, (d < ndim x)%nat -> 0 <= nth d (shp x) 0) ->
  at_item F p (-1) q -> ap_mode q = MSmooth \/ ap_mode q = MLinearRamp -> 0 <= ap_before q -> 0 <= ap_after q -> ap_before q + ap_after q <> 0 ->
  let n := nth (Z.to_nat (a + Z.of_nat (ndim x))) (shp x) 0 in 1 <= n ->
  (ap_before q <= 1 /\ ap_after q <= 1 \/ ap_mode q = MSmooth /\ n = 1 -> exists y y',
     padder_forward fuel junk p x (AxInt (a - Z.of_nat (ndim x))) = Ok y /\ padder_forward fuel junk p x (AxInt a) = Ok y' /\ teq y y') /\
  (2 <= ap_before q \/ 2 <= ap_after q -> (ap_mode q = MSmooth -> 2 <= n) ->
     padder_forward fuel junk p x (AxInt (a - Z.of_nat (ndim x))) = Err RuntimeError).
Proof. exact pad_int_sloped. Qed.
Print Assumptions C127_pad_int_sloped.
Example C127_pad_sloped_example :
  at_item QcF (pad1d (1, 1) MSmooth) (-1) {| ap_before := 1; ap_after := 1; ap_mode := MSmooth; ap_const := (qz 7, qz 8); ap_end := (qz 0, qz 10); ap_stat := (Some 2, None) |} /\
  show (padder_forward 9 garbage (pad1d (1, 1) MSmooth) x23 (AxInt (-3))) = show (padder_forward 9 garbage (pad1d (1, 1) MSmooth) x23 (AxInt 1)) /\
  errof (padder_forward 9 garbage (pad1d (2, 0) MSmooth) x23 (AxInt (-3))) = Some RuntimeError /\
  errof (padder_forward 9 garbage (pad1d (0, 2) MLinearRamp) x23 (AxInt (-3))) = Some RuntimeError /\
  errof (padder_forward 9 garbage (pad1d (2, 0) MSmooth) x23 (AxInt (-1))) = None /\
  errof (padder_forward 9 garbage (pad1d (2, 0) MSmooth) (mkT [2; 1] (fun i => qz (nth 0 i 0))) (AxInt (-3))) = None.
Proof.
  split; [repeat split; reflexivity|]. repeat split; vm_compute; reflexivity.
Qed.
Example C127_pad_example : check_axes 2 (AxSeq [0; 2]) = Ok [0; 2] /\ looked_at QcF (pad1d (1, 0) MCircular) [0; 2] = 2%nat /\
  (forall r, (r < 2)%nat -> params (pad1d (1, 0) MCircular) r <> None) /\ off_range 2 2 /\
  padder_forward 9 garbage (pad1d (1, 0) MCircular) x23 (AxSeq [0; 2]) = Err IndexError /\
  padder_forward 9 garbage (pad1d (1, 0) MCircular) x23 (AxInt 7) = Err IndexError /\
  show (padder_forward 9 garbage (pad1d (1, 0) MCircular) x23 (AxInt (-3))) = show (padder_forward 9 garbage (pad1d (1, 0) MCircular) x23 (AxInt 1)) /\
  show (padder_forward 9 garbage (pad1d (1, 0) MCircular) x23 (AxInt (-3))) = Some ([2; 4], zq [4; 1; 2; 4; 40; 10; 20; 40]).
Proof.
  split; [reflexivity|]. split; [reflexivity|]. split; [intros [|[|r]] Hr; try discriminate; lia|]. split; [unfold off_range; lia|].
  repeat split; vm_compute; reflexivity.
Qed.

(** ** C127 (pooling): the axes are checked twice, so far away ints are rejected; ndim passes both checks and is an IndexError. *)
Theorem C127_pool_int_rejected : forall (F : ofield) fuel junk (m : pool F) (x : tensor F) a,
  a < - 2 * Z.of_nat (ndim x) \/ Z.of_nat (ndim x) < a ->
  sep_forward fuel junk m x (AxInt a) = (m, Err AssertionError).
Proof. exact pool_int_rejected. Qed.
Print Assumptions C127_pool_int_rejected.
Theorem C127_pool_int_wraps : forall (F : ofield) fuel junk (m : pool F) (x : tensor F) a,
  - Z.of_nat (ndim x) <= a < 0 -> pl_padder m = None ->
  sep_forward fuel junk m x (AxInt (a - Z.of_nat (ndim x))) = sep_forward fuel junk m x (AxInt a).
Proof. exact pool_int_wraps. Qed.
Print Assumptions C127_pool_int_wraps.
Theorem C127_pool_int_wraps_same : forall (F : ofield) fuel junk (m : pool F) (x : tensor F) a n kers sts p ms,
  - Z.of_nat (ndim x) <= a < 0 -> n = Z.to_nat (a + Z.of_nat (ndim x)) ->
  built 1 kers sts (Some p) m -> same_call F fuel p x (AxInt a) [n] ms kers sts ->
  sep_forward fuel junk m x (AxInt (a - Z.of_nat (ndim x))) = sep_forward fuel junk m x (AxInt a).
Proof. exact pool_int_wraps_same. Qed.
Print Assumptions C127_pool_int_wraps_same.
(** With a same padder nothing is changed before the error; an axis with an empty kernel is looked up all the same. *)
Theorem C127_pool_ndim_padder : forall (F : ofield) fuel junk (m : pool F) p (x : tensor F) l l',
  check_axes (Z.of_nat (ndim x)) (AxSeq l) = Ok l' -> pl_padder m = Some p ->
  pl_ndim m = 0 \/ pl_ndim m = Z.of_nat (length l) -> In (Z.of_nat (ndim x)) l' ->
  sep_forward fuel junk m x (AxSeq l) = (m, Err IndexError).
Proof. exact pool_off_padder. Qed.
Print Assumptions C127_pool_ndim_padder.
(** Without one, an earlier axis may be too short (RuntimeError). *)
Theorem C127_pool_ndim : forall (F : ofield) fuel junk (m : pool F) (x : tensor F) l l' kers sts,
  check_axes (Z.of_nat (ndim x)) (AxSeq l) = Ok l' -> built (length l) kers sts None m ->
  (exists r, (r < length l)%nat /\ nth r kers [] <> [] /\ nth r l' 0 = Z.of_nat (ndim x)) ->
  sep_forward fuel junk m x (AxSeq l) = (m, Err IndexError) \/ sep_forward fuel junk m x (AxSeq l) = (m, Err RuntimeError).
Proof. exact pool_off. Qed.
Print Assumptions C127_pool_ndim.
Definition pl0 : pool QcF := mkPool (NItem []) (NItem 0) (NItem 1) None 0.
Example C127_pool_example : check_axes 1 (AxSeq [0; 1]) = Ok [0; 1] /\
  same_call QcF 9 (sym (0, 0) MReflect) x3 (AxInt (-1)) [0%nat] [MReflect] [k12] [1] /\ built 1 [k12] [1] (Some (sym (0, 0) MReflect)) (pl k12 1 (Some (sym (0, 0) MReflect))) /\
  snd (sep_forward 9 garbage (pl k12 1 None) x3 (AxInt 2)) = Err AssertionError /\ snd (sep_forward 9 garbage (pl k12 1 None) x3 (AxInt 1)) = Err IndexError /\
  snd (sep_forward 9 garbage (pl k12 1 None) x3 (AxSeq [0; 1])) = Err IndexError /\
  snd (sep_forward 9 garbage (pl k12 1 None) (ofz [1] [1]) (AxSeq [0; 1])) = Err RuntimeError /\
  show (snd (sep_forward 9 garbage pl0 x3 (AxSeq [0; 1]))) = Some ([3], zq [1; 2; 4]) /\
  snd (sep_forward 9 garbage (mkPool (NItem []) (NItem 0) (NItem 1) (Some (sym (0, 0) MReflect)) 0) x3 (AxSeq [0; 1])) = Err IndexError /\
  show (snd (sep_forward 9 garbage (pl k12 1 None) x3 (AxInt (-2)))) = Some ([2], zq [5; 10]) /\
  snd (sep_forward 9 garbage (pl k12 1 None) x3 (AxInt (-3))) = Err AssertionError.
Proof.
  split; [reflexivity|]. split.
  { destruct (sym_call k12 1 MReflect) as [[A1 A2 A3] B C D E G H K]; [lia|unfold klen; cbn; lia|exact I|]. split; auto. split; auto. }
  split; [apply pl_built; [discriminate|lia]|]. repeat split; vm_compute; reflexivity.
Qed.
