(** Model of the remaining helpers: the index tuples of padding/utils.py with negative
    axes, [_check_padding], the hdrvdp3 stub and BayerConv2dUnshuffle. *)
From Coq Require Import String.
From Verif Require Export CfaModel PadModel.
Open Scope list_scope.
Open Scope Z_scope.

(** padding/utils.py:8-33 [make_idx] for every integer [dim];
    [s] is the slice made of the positional arguments.  A negative repetition count gives the empty tuple. *)
Definition make_idx_py (s : slice) (dim : Z) (nd : nat) : list slice :=
  let dim := if dim <? 0 then Z.of_nat nd + dim else dim in
  repeat sfull (Z.to_nat dim) ++ [s] ++ repeat sfull (Z.to_nat (Z.of_nat nd - dim - 1)).

(** padding/utils.py:36-61 [modify_idx] for every integer [dim]: assignment to a list
    entry. *)
Definition modify_idx_py (s : slice) (idx : list slice) (dim : Z) : res (list slice) :=
  let k := if dim <? 0 then dim + Z.of_nat (List.length idx) else dim in
  if (0 <=? k) && (k <? Z.of_nat (List.length idx)) then Ok (upd (Z.to_nat k) s idx) else Err IndexError.

(** An entry of [pad]: with [__index__] (an int) or without (say a float). *)
Inductive pad_entry := PInt (z : Z) | PNoIndex.
(** The argument [pad]: something without [__len__], or a sequence. *)
Inductive pad_arg := PNoLen | PSeq (l : list pad_entry).

(** padding/utils.py:120-125 [_check_padding]; [nd] is [None] when [x] is no tensor, and
    its number of axes otherwise. *)
Definition check_padding (nd : option nat) (pad : pad_arg) : res unit :=
  match nd, pad with
  | None, _ => Err AssertionError
  | _, PNoLen => Err AssertionError
  | Some nd, PSeq l =>
    _ <- assertb (Nat.eqb (List.length l mod 2) 0) ;;
    _ <- assertb (Nat.leb (List.length l / 2) nd) ;;
    assertb (forallb (fun p => match p with PInt z => 0 <=? z | PNoIndex => false end) l)
  end.

(** metrics/hdrvdp/hdrvdp3.py:3-7: the function only compares the shapes and returns
    None. *)
Definition hdrvdp3 {A} (image_true image_test : tensor A) : res unit :=
  assertb (all2 Z.eqb (shp image_true) (shp image_test)).

(** bayer_conv_2d.py:177-182 [BayerConv2dUnshuffle.forward]; the constructor passes its
    arguments on. *)
Definition unshuffle_net_forward {F : ofield} (junk : list Z -> F) (m : bayer_conv F) (x : tensor F) (sa : string)
  : res (tensor F) := bayer_forward_unshuffle junk m x sa.
