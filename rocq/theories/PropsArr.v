(** C134: arrays and tensors as data of a spec.

    Vocabulary (RaggedArr.v is the model, RaggedArrProofs.v has the rest):
    - [val A]: a scalar, a list or tuple of values, or a numeric array ([VArr true]: torch, [VArr false]: numpy);
    - [to_tree v]: v with every array replaced by the nested list of its entries (tolist());
    - [solid v]: no array inside v has an axis of length 0;
    - [as_tree v t]: t is to_tree v, and v is solid; [as_spec s t]: the same of the data of two specs, which
      have the same shape and number of index axes;
    - [like R a b]: both succeed with results related by R, or both fail, with the same kind of error except
      that arrays raise RuntimeError (torch) for ValueError and IndexError for TypeError;
    - [vspec_item], [vspec_index]: NdSpec(data, item_shape=...) and NdSpec(data, index_shape=...);
      [vs_get], [vs_iter], [vs_len], [vs_map], [vs_starmap], [vs_apply], [vs_zip]: its methods; [ndspec_item] and
      [nd_...]: the same for nested lists (NdSpecModel.v, C28-C35);
    - [target_ok n]: n is -1 or at least 1. *)
From Verif Require Import RaggedArrProofs.
Open Scope Z_scope.

Theorem C134_shape : forall A (v : val A), solid v -> ragged_shape (to_tree v) = vshape v.
Proof. exact @to_tree_shape. Qed.
Print Assumptions C134_shape.
Theorem C134_expand : forall A (junk : list Z -> A) (v : val A) new, solid v -> Forall target_ok new ->
  like (fun r q => as_tree (fst r) (fst q) /\ snd q = snd r) (vexpand_ragged junk v (vshape v) new) (expand_ragged (to_tree v) (ragged_shape (to_tree v)) new).
Proof. exact @expand_arrays. Qed.
Print Assumptions C134_expand.
Theorem C134_item : forall A (junk : list Z -> A) (v : val A) item_shape, solid v -> Forall target_ok item_shape ->
  like as_spec (vspec_item junk v item_shape) (ndspec_item (to_tree v) item_shape).
Proof. exact @item_arrays. Qed.
Print Assumptions C134_item.
Theorem C134_index : forall A (v : val A) index_shape, solid v -> like as_spec (vspec_index v index_shape) (ndspec_index (to_tree v) index_shape).
Proof. exact @index_arrays. Qed.
Print Assumptions C134_index.
Theorem C134_get : forall A (s : vspec A) (t : ndspec A) k, as_spec s t -> like as_tree (vs_get s k) (nd_get t k).
Proof. exact @get_arrays. Qed.
Print Assumptions C134_get.
Theorem C134_iter : forall A (s : vspec A) (t : ndspec A), as_spec s t -> vs_len s = nd_len t /\ like (Forall2 as_tree) (vs_iter s) (nd_iter t).
Proof. exact @iter_arrays. Qed.
Print Assumptions C134_iter.
Theorem C134_map : forall A B (f : val A -> res (val B)) (g : tree A -> res (tree B)) s t,
  (forall v, solid v -> like as_tree (f v) (g (to_tree v))) -> as_spec s t -> like as_spec (vs_map f s) (nd_map g t).
Proof. exact @map_arrays. Qed.
Print Assumptions C134_map.
Theorem C134_starmap : forall A B (f : list (val A) -> res (val B)) (g : list (tree A) -> res (tree B)) s t,
  (forall l, (forall v, In v l -> solid v) -> like as_tree (f l) (g (map to_tree l))) -> as_spec s t -> like as_spec (vs_starmap f s) (nd_starmap g t).
Proof. exact @starmap_arrays. Qed.
Print Assumptions C134_starmap.
Theorem C134_apply : forall A B (f : list (val A) -> res (val B)) (g : list (tree A) -> res (tree B)) ss ts,
  (forall l, (forall v, In v l -> solid v) -> like as_tree (f l) (g (map to_tree l))) -> Forall2 as_spec ss ts -> like as_spec (vs_apply f ss) (nd_apply g ts).
Proof. exact @apply_arrays. Qed.
Print Assumptions C134_apply.
Theorem C134_zip : forall A (ss : list (vspec A)) ts, Forall2 as_spec ss ts -> like as_spec (vs_zip ss) (nd_zip ts).
Proof. exact @zip_arrays. Qed.
Print Assumptions C134_zip.
(** A list of kernels given as one-dimensional arrays of any lengths, even 0. *)
Theorem C134_kernels : forall A (junk : list Z -> A) l, l <> [] -> (forall v, In v l -> exists b x n, v = VArr b x /\ shp x = [n] /\ 0 <= n) ->
  exists s, vspec_item junk (VList l) [-1] = Ok s /\ vs_data s = VList l /\ vs_index_shape s = [Z.of_nat (length l)] /\ vs_len s = Ok (Z.of_nat (length l)) /\
    (length (vs_item_shape s) = 1)%nat /\ vs_iter s = Ok l /\ forall i, vs_get s (KInt i) = pyidx l i.
Proof. exact @kernels_kept. Qed.
Print Assumptions C134_kernels.

(** Arrays and targets with as many lengths as the array has axes: broadcast_to and expand accept a length that is -1, the old one, or any that is
    not negative where the old one is 1; the result repeats along the axes of length 1. *)
Theorem C134_stretch : forall A b (x : tensor A) target, length target = length (shp x) -> Forall (fun o => 0 <= o) (shp x) ->
  (Forall2 accepted (shp x) target -> exists r, broadcast b x target = Ok r /\ stretched x r target) /\
  (~ Forall2 accepted (shp x) target -> broadcast b x target = Err (if b then RuntimeError else ValueError)).
Proof. exact @broadcast_ends. Qed.
Print Assumptions C134_stretch.
(** Tensors and targets with more lengths, or fewer. *)
Theorem C134_expand_more : forall A (x : tensor A) lead target, length target = length (shp x) -> Forall (fun o => 0 <= o) (shp x) ->
  (Forall2 accepted (shp x) target -> Forall (fun n => 0 <= n) lead ->
     exists r r', torch_expand x (lead ++ target) = Ok r /\ torch_expand x target = Ok r' /\ shp r = lead ++ shp r' /\
       forall i j, length i = length lead -> at_ r (i ++ j) = at_ r' j) /\
  (~ (Forall2 accepted (shp x) target /\ Forall (fun n => 0 <= n) lead) -> torch_expand x (lead ++ target) = Err RuntimeError) /\
  (forall t, (length t < length (shp x))%nat -> torch_expand x t = Err RuntimeError).
Proof. exact @expand_more. Qed.
Print Assumptions C134_expand_more.
(** Target 0 turns a list into a numpy array without entries. *)
Theorem C134_to_none : forall A (junk : list Z -> A) c l,
  vexpand_ragged junk (VList (c :: l)) [Z.of_nat (length (c :: l))] [0] = Ok (VArr false (mkT [0] junk), [0]).
Proof. exact @list_to_none. Qed.
Print Assumptions C134_to_none.
(** A scalar handed over with a shape that is not its own is kept. *)
Theorem C134_scalar : forall A (junk : list Z -> A) a n m, n <> m -> n <> 0 -> vexpand_ragged junk (VLeaf a) [n] [m] = Ok (VLeaf a, []).
Proof. exact @scalar_kept. Qed.
Print Assumptions C134_scalar.
Example C134_stretch_example : Forall2 accepted [1; 3; 2] [4; -1; 2] /\ ~ Forall2 accepted [1; 3] [-2; 3] /\ ~ Forall2 accepted [2] [3] /\
  (exists r, broadcast true (mkT [1; 3] (fun i => nth 1 i 0)) [2; -1] = Ok r /\ shp r = [2; 3] /\ at_ r [1; 2] = 2).
Proof.
  unfold accepted. split; [repeat constructor; lia|]. split; [intros H; inversion H; lia|]. split; [intros H; inversion H; lia|]. eexists. split; [reflexivity|]. split; reflexivity.
Qed.

Definition k3 : val Z := VArr false (mkT [3] (fun i => 10 + nth 0 i 0)).
Definition k1 : val Z := VArr true (mkT [1] (fun _ => 7)).
Definition m22 : val Z := VArr true (mkT [2; 2] (fun i => 2 * nth 0 i 0 + nth 1 i 0)).
Definition none (_ : list Z) : Z := 999.
Definition total (l : list (val Z)) : res (val Z) := Ok (VLeaf (Z.of_nat (length l))).
Definition total' (l : list (tree Z)) : res (tree Z) := Ok (Leaf (Z.of_nat (length l))).
Example C134_example :
  solid k3 /\ solid m22 /\ to_tree m22 = Node [Node [Leaf 0; Leaf 1]; Node [Leaf 2; Leaf 3]] /\ vshape (VList [k3; k1]) = [2; -1] /\
  (exists r, vexpand_ragged none (VList [k3; k1]) [2; -1] [3] = Ok (r, [2; 3]) /\ to_tree r = Node [Node [Leaf 10; Leaf 11; Leaf 12]; Node [Leaf 7; Leaf 7; Leaf 7]]) /\
  vexpand_ragged none m22 [2; 2] [3; 2] = Err RuntimeError /\
  (exists s t v, vspec_item none m22 [2] = Ok s /\ ndspec_item (to_tree m22) [2] = Ok t /\ vs_index_shape s = [2] /\ vs_get s (KInt (-1)) = Ok v /\ to_tree v = Node [Leaf 2; Leaf 3] /\
     (forall l, (forall v, In v l -> solid v) -> like as_tree (total l) (total' (map to_tree l))) /\
     exists r, vs_starmap total s = Ok r /\ vs_data r = VList [VLeaf 2; VLeaf 2]).
Proof.
  split; [constructor; cbn; repeat constructor; lia|]. split; [constructor; cbn; repeat constructor; lia|]. split; [reflexivity|]. split; [reflexivity|].
  split; [eexists; split; reflexivity|]. split; [reflexivity|]. do 3 eexists. split; [reflexivity|]. split; [reflexivity|]. split; [reflexivity|]. split; [reflexivity|].
  split; [reflexivity|]. split; [|eexists; split; reflexivity]. intros l _. cbn. rewrite map_length. split; [reflexivity|constructor].
Qed.
(** Target 0 drops the entries of a list (C35) but not those of an array; the shape of an array that has no
    entries is not the shape of the empty list. *)
Theorem C134_zero_differs : forall b, exists v : val Z, solid v /\ v = VArr b (mkT [3] (fun i => nth 0 i 0)) /\
  expand_ragged (to_tree v) [3] [0] = Ok (Node [], [0]) /\ vexpand_ragged none v [3] [0] = Err (if b then RuntimeError else ValueError).
Proof.
  intros b. exists (VArr b (mkT [3] (fun i => nth 0 i 0))). split; [constructor; cbn; repeat constructor; lia|]. split; [reflexivity|]. split; [reflexivity|]. destruct b; reflexivity.
Qed.
Print Assumptions C134_zero_differs.
Theorem C134_empty_differs : forall b, exists v : val Z, v = VArr b (mkT [0; 3] none) /\ vshape v = [0; 3] /\ ragged_shape (to_tree v) = [0].
Proof. intros b. exists (VArr b (mkT [0; 3] none)). repeat split. Qed.
Print Assumptions C134_empty_differs.
