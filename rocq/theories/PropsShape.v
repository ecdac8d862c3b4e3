(** C92: conv_nd (shapes/conv_like.py:33-35).

    Vocabulary: [arg_tree s]: the number, or the flat list of numbers, given as an argument; [expand n s = Some l]: l has
    n entries, copies of the number or the list itself; [is_list]: given as a list; [nd_get sp (KInt r)]: indexing an NdSpec. *)
From Verif Require Import ConvNd ExampleUtil PropsPool.
Open Scope Z_scope.

(** Entry r counts the window positions j * stride + dilation * (kernel_size - 1) that fit in axis r. *)
Theorem C92_counts : forall n i k s d is ks ss ds, expand n i = Some is -> expand n k = Some ks -> expand n s = Some ss -> expand n d = Some ds ->
  is_list i \/ is_list k \/ is_list s \/ is_list d ->
  (forall r, (r < n)%nat -> 1 <= nth r ss 0 /\ nth r ds 0 * (nth r ks 0 - 1) < nth r is 0) ->
  exists sp, conv_nd (arg_tree i) (arg_tree k) (arg_tree s) (arg_tree d) = Ok sp /\ nd_index_shape sp = [Z.of_nat n] /\
    forall r, (r < n)%nat -> exists m, nd_get sp (KInt (Z.of_nat r)) = Ok (Leaf m) /\
      forall j, 0 <= j -> (j * nth r ss 0 + nth r ds 0 * (nth r ks 0 - 1) < nth r is 0 <-> j < m).
Proof. exact conv_nd_counts. Qed.
Print Assumptions C92_counts.
(** Any sizes, kernels and dilations, stride other than 0. *)
Theorem C92_value : forall n i k s d is ks ss ds, expand n i = Some is -> expand n k = Some ks -> expand n s = Some ss -> expand n d = Some ds ->
  is_list i \/ is_list k \/ is_list s \/ is_list d ->
  (forall r, (r < n)%nat -> nth r ss 0 <> 0) ->
  exists sp, conv_nd (arg_tree i) (arg_tree k) (arg_tree s) (arg_tree d) = Ok sp /\ nd_index_shape sp = [Z.of_nat n] /\ nd_len sp = Ok (Z.of_nat n) /\
    forall r, (r < n)%nat -> nd_get sp (KInt (Z.of_nat r)) =
      Ok (Leaf ((nth r is 0 - nth r ds 0 * (nth r ks 0 - 1) - 1) / nth r ss 0 + 1)).
Proof. exact conv_nd_value. Qed.
Print Assumptions C92_value.
Example C92_example : exists sp, conv_nd (arg_tree (NList [10; 7])) (arg_tree (NItem 3)) (arg_tree (NList [2; 1])) (arg_tree (NItem 2)) = Ok sp /\
  nd_data sp = Node [Leaf 3; Leaf 3] /\ expand 2 (NList [10; 7]) = Some [10; 7] /\ expand 2 (NItem 3) = Some [3; 3] /\
  expand 2 (NList [2; 1]) = Some [2; 1] /\ is_list (NList [10; 7]) /\
  (forall r, (r < 2)%nat -> 1 <= nth r [2; 1] 0 /\ nth r [2; 2] 0 * (nth r [3; 3] 0 - 1) < nth r [10; 7] 0).
Proof.
  eexists. split; [vm_compute; reflexivity|]. repeat (split; [reflexivity || exact I|]).
  intros [|[|r]] Hr; simpl; lia.
Qed.

(** Numbers only: one number, answering every index. *)
Theorem C92_item : forall i k s d m, conv_1d i k s d = Ok m ->
  exists sp, conv_nd (Leaf i) (Leaf k) (Leaf s) (Leaf d) = Ok sp /\ nd_index_shape sp = [] /\ nd_data sp = Leaf m /\
    forall r, nd_get sp (KInt r) = Ok (Leaf m).
Proof. exact conv_nd_item. Qed.
Print Assumptions C92_item.
Example C92_item_example : conv_1d 10 3 2 2 = Ok 3 /\ conv_1d 2 5 2 1 = Ok (-1).
Proof. split; reflexivity. Qed.

(** Lists of different lengths, and a stride of 0. *)
Theorem C92_lengths : forall i k s d l l', In (NList l) [i; k; s; d] -> In (NList l') [i; k; s; d] -> length l <> length l' ->
  conv_nd (arg_tree i) (arg_tree k) (arg_tree s) (arg_tree d) = Err ValueError.
Proof. exact conv_nd_lengths. Qed.
Print Assumptions C92_lengths.
Theorem C92_stride0 : forall n i k s d is ks ss ds, expand n i = Some is -> expand n k = Some ks -> expand n s = Some ss -> expand n d = Some ds ->
  is_list i \/ is_list k \/ is_list s \/ is_list d -> (exists r, (r < n)%nat /\ nth r ss 0 = 0) ->
  conv_nd (arg_tree i) (arg_tree k) (arg_tree s) (arg_tree d) = Err ZeroDivisionError.
Proof. exact conv_nd_stride0. Qed.
Print Assumptions C92_stride0.
Example C92_errors_example : conv_nd (arg_tree (NList [10; 7])) (arg_tree (NItem 3)) (arg_tree (NList [2; 1; 1])) (arg_tree (NItem 2)) = Err ValueError /\
  conv_nd (arg_tree (NList [10; 7])) (arg_tree (NItem 3)) (arg_tree (NList [2; 0])) (arg_tree (NItem 2)) = Err ZeroDivisionError /\
  (exists r, (r < 2)%nat /\ nth r [2; 0] 0 = 0).
Proof. split; [reflexivity|]. split; [reflexivity|]. exists 1%nat. split; [lia|reflexivity]. Qed.

(** A pooling module without padding returns the sizes conv_nd gives for its kernel_size and stride. *)
Theorem C92_pool : forall (F : ofield) fuel junk (m : pool F) x ax al kers sts, on_axes x ax al -> built (length al) kers sts None m ->
  (forall r, (r < length al)%nat -> nth r kers [] <> [] /\ klen (nth r kers []) <= nth (nth r al 0%nat) (shp x) 0) ->
  exists y sp, snd (sep_forward fuel junk m x ax) = Ok y /\
    conv_nd (Node (map (fun a => Leaf (nth a (shp x) 0)) al)) (arg_tree (pl_size m)) (arg_tree (pl_stride m)) (Leaf 1) = Ok sp /\
    nd_index_shape sp = [Z.of_nat (length al)] /\
    forall r, (r < length al)%nat -> nd_get sp (KInt (Z.of_nat r)) = Ok (Leaf (nth (nth r al 0%nat) (shp y) 0)).
Proof. exact conv_nd_pool. Qed.
Print Assumptions C92_pool.
Example C92_pool_example : on_axes x45 AxNone [0%nat; 1%nat] /\ built 2 [kerA; kerB] [1; 2] None (pool1 None) /\
  (forall r, (r < 2)%nat -> nth r [kerA; kerB] [] <> [] /\ klen (nth r [kerA; kerB] []) <= nth (nth r [0; 1]%nat 0%nat) (shp x45) 0) /\
  conv_nd (Node [Leaf 4; Leaf 5]) (arg_tree (pl_size (pool1 None))) (arg_tree (pl_stride (pool1 None))) (Leaf 1) =
    Ok (mkNd (Node [Leaf 2; Leaf 2]) [2] 1).
Proof.
  destruct C36_C37_valid_example as (E1 & E2 & E3 & _). split; [exact E1|]. split; [exact E2|]. split.
  - intros r Hr. split; [|now apply E3]. destruct r as [|[|r]]; [discriminate|discriminate|lia].
  - vm_compute. reflexivity.
Qed.
