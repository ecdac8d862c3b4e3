(** C123: index tuples, the width check and the two thin wrappers.

    Vocabulary (UtilProofs.v, PadUtilProofs.v):
    - [names_axis nd dim a]: the Python index dim, from -nd to nd - 1, names axis a of nd axes;
    - [torch_form l]: the pairs of widths l of the last axes in the order of torch, last axis first;
    - [flat l]: pairs written as lists of two. *)
From Coq Require Import String.
From Verif Require Import ExampleUtil UtilModel UtilProofs PadUtilProofs GradColor BayerSize CfaAccepts.
Import List. Import ListNotations.
Local Notation length := List.length.
Open Scope string_scope.
Open Scope list_scope.
Open Scope Z_scope.

(** make_idx puts its slice at the named axis and full slices elsewhere ... *)
Theorem C123_make_idx : forall s dim nd a, names_axis nd dim a ->
  length (make_idx_py s dim nd) = nd /\
  forall d, (d < nd)%nat -> nth d (make_idx_py s dim nd) sfull = if Nat.eqb d a then s else sfull.
Proof. exact make_idx_one. Qed.
Print Assumptions C123_make_idx.
(** ... so indexing with it cuts that axis only ... *)
Theorem C123_make_idx_get : forall A (x : tensor A) lo hi dim a, nonneg (shp x) -> names_axis (ndim x) dim a ->
  0 <= lo <= hi -> hi <= nth a (shp x) 0 ->
  exists y, tget x (make_idx_py (srng lo hi) dim (ndim x)) = Ok y /\ shp y = upd a (hi - lo) (shp x) /\
    forall i, valid (shp y) i -> at_ y i = at_ x (upd a (lo + nth a i 0) i).
Proof. exact @make_idx_get. Qed.
Print Assumptions C123_make_idx_get.
(** ... and any other axis number gives a tuple that is too long. *)
Theorem C123_make_idx_out : forall A (x : tensor A) s dim, (forall a, ~ names_axis (ndim x) dim a) ->
  tget x (make_idx_py s dim (ndim x)) = Err IndexError.
Proof. exact @make_idx_out. Qed.
Print Assumptions C123_make_idx_out.
Example C123_make_idx_example :
  make_idx_py (srng 1 3) (-2) 3 = [sfull; srng 1 3; sfull] /\ names_axis 3 (-2) 1 /\
  show (tget (ofz [2; 3] [1; 2; 3; 4; 5; 6]) (make_idx_py (srng 1 3) (-1) 2)) = Some ([2; 2], zq [2; 3; 5; 6]) /\
  make_idx_py (srng 1 3) 3 2 = [sfull; sfull; sfull; srng 1 3] /\
  make_idx_py (srng 1 3) (-3) 2 = [srng 1 3; sfull; sfull].
Proof. repeat split; auto; vm_compute; auto. Qed.
(** The padding model uses nonnegative axes. *)
Theorem C123_same_tuples : forall s idx d nd, (d < nd)%nat -> length idx = nd ->
  make_idx_py s (Z.of_nat d) nd = make_idx s d nd /\ modify_idx_py s idx (Z.of_nat d) = Ok (modify_idx s idx d).
Proof. exact same_tuples. Qed.
Print Assumptions C123_same_tuples.

(** modify_idx replaces the slice of the named axis and raises for any other number. *)
Theorem C123_modify_idx : forall s idx dim a, names_axis (length idx) dim a ->
  exists idx', modify_idx_py s idx dim = Ok idx' /\ length idx' = length idx /\
    forall d, (d < length idx)%nat -> nth d idx' sfull = if Nat.eqb d a then s else nth d idx sfull.
Proof. exact modify_idx_one. Qed.
Print Assumptions C123_modify_idx.
Theorem C123_modify_idx_out : forall s idx dim, (forall a, ~ names_axis (length idx) dim a) ->
  modify_idx_py s idx dim = Err IndexError.
Proof. exact modify_idx_out. Qed.
Print Assumptions C123_modify_idx_out.
Example C123_modify_idx_example :
  modify_idx_py (srng 1 3) [srng 0 2; srng 4 5] (-1) = Ok [srng 0 2; srng 1 3] /\
  modify_idx_py (srng 1 3) [srng 0 2; srng 4 5] 2 = Err IndexError /\
  modify_idx_py (srng 1 3) [srng 0 2; srng 4 5] (-3) = Err IndexError.
Proof. repeat split. Qed.

(** _check_padding accepts exactly the nonnegative widths, in torch's order, of at most ndim axes;
    everything else raises AssertionError. *)
Theorem C123_check_padding : forall nd pad,
  (check_padding (Some nd) pad = Ok tt <->
   exists l, pad = PSeq (map PInt (torch_form l)) /\ (length l <= nd)%nat /\
     Forall (fun q => 0 <= fst q /\ 0 <= snd q) l).
Proof. exact check_padding_iff. Qed.
Print Assumptions C123_check_padding.
Theorem C123_check_padding_no : forall nd pad,
  check_padding nd pad <> Ok tt -> check_padding nd pad = Err AssertionError.
Proof. exact check_padding_no. Qed.
Print Assumptions C123_check_padding_no.
(** Accepted widths convert to numpy's format with one pair per axis: widths 2k and 2k+1 go to the
    axis k places before the last one. *)
Theorem C123_check_padding_numpy : forall nd zs, check_padding (Some nd) (PSeq (map PInt zs)) = Ok tt ->
  exists l, pw_torch_to_numpy zs (Some (Z.of_nat nd)) = Ok (flat l) /\ length l = nd /\
    Forall (fun q => 0 <= fst q /\ 0 <= snd q) l /\
    forall k, (2 * k + 1 < length zs)%nat ->
      nth (nd - 1 - k) l (0, 0) = (nth (2 * k) zs 0, nth (2 * k + 1) zs 0).
Proof. exact check_padding_numpy. Qed.
Print Assumptions C123_check_padding_numpy.
Example C123_check_padding_example :
  check_padding (Some 3%nat) (PSeq [PInt 3; PInt 4; PInt 1; PInt 2]) = Ok tt /\
  pw_torch_to_numpy [3; 4; 1; 2] (Some 3) = Ok [[0; 0]; [1; 2]; [3; 4]] /\
  check_padding (Some 1%nat) (PSeq [PInt 3; PInt 4; PInt 1; PInt 2]) = Err AssertionError /\
  check_padding (Some 3%nat) (PSeq [PInt 3; PInt 4; PInt 1]) = Err AssertionError /\
  check_padding (Some 3%nat) (PSeq [PInt 3; PInt (-1)]) = Err AssertionError /\
  check_padding (Some 3%nat) (PSeq [PInt 3; PNoIndex]) = Err AssertionError /\
  check_padding (Some 3%nat) PNoLen = Err AssertionError /\ check_padding None (PSeq []) = Err AssertionError.
Proof. repeat split. Qed.

(** hdrvdp3 only compares shapes. *)
Theorem C123_hdrvdp3 : forall A (x y : tensor A),
  (shp x = shp y -> hdrvdp3 x y = Ok tt) /\ (shp x <> shp y -> hdrvdp3 x y = Err AssertionError).
Proof. exact @hdrvdp3_iff. Qed.
Print Assumptions C123_hdrvdp3.
Example C123_hdrvdp3_example :
  hdrvdp3 (ofz [2; 3] []) (ofz [2; 3] [1]) = Ok tt /\ hdrvdp3 (ofz [2; 3] []) (ofz [3; 2] []) = Err AssertionError /\
  hdrvdp3 (ofz [2; 3] []) (ofz [2; 3; 1] []) = Err AssertionError.
Proof. repeat split. Qed.

(** BayerConv2dUnshuffle of a batch is the pixel_unshuffle of BayerConv2d. *)
Theorem C123_unshuffle_net : forall (F : ofield) B C m n (M : bayer_conv F) x s sa junk junk',
  0 <= B -> 0 <= m -> 0 <= n -> shp x = [B; C; 2 * m; 2 * n] -> 1 <= bc_k M -> 0 <= bc_out M ->
  In sa patterns -> case_variant s sa ->
  (forall y, bayer_forward junk M x s = Ok y ->
     exists z, unshuffle_net_forward junk' M x s = Ok z /\ teq z (pixel_unshuffle2 y)) /\
  (forall z, unshuffle_net_forward junk' M x s = Ok z -> exists y, bayer_forward junk M x s = Ok y).
Proof. exact unshuffle_values. Qed.
Print Assumptions C123_unshuffle_net.
Example C123_unshuffle_net_example :
  let net : bayer_conv QcF := mkBC 1 2 1 (fun p o _ _ _ => qz (pos_color p + 1 + o)) None in
  show (unshuffle_net_forward garbage net (ofz [1; 1; 2; 2] [1; 2; 3; 4]) "RGGB") =
  Some ([1; 8; 1; 1], zq [1; 4; 6; 12; 2; 6; 9; 16]).
Proof. vm_compute. reflexivity. Qed.
