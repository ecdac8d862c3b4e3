(** C28-C35, C73: nested argument specifications (utils/ndspec.py, utils/ragged.py).

    Vocabulary (RaggedProofs.v, ExpandProofs.v, NdSpecProofs.v, NdApplyProofs.v, LooseProofs.v):
    - [Leaf a] is a scalar, [Node l] a list or tuple; [nodes_at k t]: the subtrees at depth k;
    - [has_shape t s]: for every k, there are subtrees at depth k, all of them lists, of length [nth k s]
      unless that is -1, in which case two of them differ in length;
    - [complete is t]: the shape inferred for t has the length of is and equals it except where is has -1;
    - [target_ok n]: n is -1 or positive; [deep D t]: subtrees at depth less than D are non-empty lists;
    - [full_target old new]: new with leading -1 up to the number of axes of old; [padded data old new]:
      data with leading axes of length one up to the number of axes of new;
    - [fits ts t]: every list at depth k has the length [nth k ts], or length one, or [nth k ts] is -1;
    - [get p t]: subtree at path p; [bget p t]: the same, a list of one item answering every index;
    - [expanded ts t r s]: r has shape s and len ts axes, the entries of ts other than -1 are met, each item
      of r is the broadcast item of t, and lists of axes with -1 keep their length;
    - [agrees shapes s]: s is one of the shapes and the others are s or ();
    - [simple sp]: sp is an item or a one-level list of items; [wf sp]: its shape is the inferred one;
    - [inside p s]: 0 <= p_k < s_k for all k; [idx]: successive indexing;
    - [even D t]: all leaves at depth D, only innermost lists may be empty; [levelled]: all leaves at depth D;
    - [stuck t]: t has a list that is not levelled although its items have one depth, below lists whose items
      differ in depth only;
    - [represents enc sp s]: the object sp has the items [enc x] for the x of the abstract spec s. *)
From Verif Require Import NdPropLemmas NdSpecLaws LooseExact.
Open Scope Z_scope.

Definition L (l : list Z) : tree Z := Node (map Leaf l).

(** * C28 *)
Theorem C28_single_item : forall A is (t : tree A), complete is t ->
  exists sp, ndspec_item t is = Ok sp /\ nd_len sp = Ok 0 /\ nd_iter sp = Ok [t] /\ nd_index_shape sp = [] /\
    nd_item_shape sp = ragged_shape t /\ forall k, nd_get sp k = Ok t.
Proof. exact @single_item. Qed.
Print Assumptions C28_single_item.
Example C28_example : complete [2; -1] (Node [L [1; 2; 3]; L [4]]) /\ complete [2] (L [5; 6]) /\
  exists sp, ndspec_item (Node [L [1; 2; 3]; L [4]]) [2; -1] = Ok sp /\ nd_get sp (KInt 7) = Ok (Node [L [1; 2; 3]; L [4]]).
Proof.
  split; [|split].
  - split; [reflexivity|]. intros [|[|k]] Hk; [right; reflexivity|left; reflexivity|simpl in Hk; lia].
  - split; [reflexivity|]. intros [|k] Hk; [right; reflexivity|simpl in Hk; lia].
  - eexists. split; reflexivity.
Qed.

(** * C29 *)
Theorem C29_scalar : forall A (a : A) s,
  exists sp, ndspec_item (Leaf a) s = Ok sp /\ nd_index_shape sp = [] /\ nd_item_shape sp = map dim_of s /\ nd_len sp = Ok 0 /\
    (forall k, nd_get sp k = Ok (nd_data sp)) /\
    forall p, length p = length s ->
      get p (nd_data sp) = if forallb (fun q => Z.of_nat (fst q) <? dim_of (snd q)) (combine p s) then Some (Leaf a) else None.
Proof. exact @scalar_item. Qed.
Print Assumptions C29_scalar.
Example C29_example : exists sp, ndspec_item (Leaf 7) [2; -1; 3] = Ok sp /\
  nd_data sp = Node [Node [L [7; 7; 7]]; Node [L [7; 7; 7]]] /\ nd_item_shape sp = [2; 1; 3] /\
  get [1%nat; 0%nat; 2%nat] (nd_data sp) = Some (Leaf 7) /\ get [1%nat; 1%nat; 0%nat] (nd_data sp) = None.
Proof. eexists. split; [reflexivity|]. repeat split. Qed.

(** * C30 *)
Theorem C30_list : forall A is (l : list (tree A)), l <> [] -> is <> [] -> Forall (complete is) l ->
  exists sp, ndspec_item (Node l) is = Ok sp /\ nd_len sp = Ok (len l) /\ nd_iter sp = Ok l /\
    list_index l (fun i => nd_get sp (KInt i)) /\ list_index l (fun i => nd_get sp (KTuple [i])).
Proof. exact @C30_list_l. Qed.
Print Assumptions C30_list.
Theorem C30_scalar_items : forall A (l : list (tree A)),
  exists sp, ndspec_item (Node l) [] = Ok sp /\ nd_len sp = Ok (len l) /\ nd_iter sp = Ok l /\
    list_index l (fun i => nd_get sp (KInt i)) /\ list_index l (fun i => nd_get sp (KTuple [i])).
Proof. exact @C30_scalar_l. Qed.
Print Assumptions C30_scalar_items.
Theorem C30_broadcast : forall A is (l : list (tree A)) sps, l <> [] -> is <> [] -> Forall target_ok is ->
  Forall (fun c => length (ragged_shape c) = length is /\ deep (length is) c) l ->
  Forall2 (fun c sp => ndspec_item c is = Ok sp) l sps ->
  exists sp, ndspec_item (Node l) is = Ok sp /\ nd_len sp = Ok (len l) /\
    list_index (map nd_data sps) (fun i => nd_get sp (KInt i)).
Proof. exact @C30_broadcast_l. Qed.
Print Assumptions C30_broadcast.
Example C30_example : (exists sp, ndspec_item (Node [L [1; 2]; L [3; 4]; L [5; 6]]) [2] = Ok sp /\ nd_len sp = Ok 3 /\
    nd_get sp (KInt 1) = Ok (L [3; 4]) /\ nd_get sp (KInt (-1)) = Ok (L [5; 6]) /\ nd_get sp (KInt 3) = Err IndexError /\
    nd_get sp (KInt (-4)) = Err IndexError) /\
  (exists sp, ndspec_item (L [8; 9]) [] = Ok sp /\ nd_len sp = Ok 2 /\ nd_get sp (KInt (-2)) = Ok (Leaf 8)) /\
  (exists sp, ndspec_item (Node [L [1]; L [3; 4]]) [2] = Ok sp /\ nd_get sp (KInt 0) = Ok (L [1; 1]) /\ nd_get sp (KInt 1) = Ok (L [3; 4])).
Proof. split; [|split]; eexists; (split; [reflexivity|]); repeat split. Qed.
Example C30_hypotheses : Forall target_ok [2] /\ Forall (fun c => length (ragged_shape c) = 1%nat /\ deep 1 c) [L [1]; L [3; 4]] /\
  Forall2 (fun c sp => ndspec_item c [2] = Ok sp) [L [1]; L [3; 4]] [mkNd (L [1; 1]) [2] 0; mkNd (L [3; 4]) [2] 0].
Proof.
  split; [|split].
  - constructor; [right; lia|constructor].
  - repeat (apply Forall_cons || apply Forall_nil); (split; [reflexivity|]); intros [|k] u Hk Hu; try lia; destruct Hu as [<-|[]];
      eexists; (split; [reflexivity|discriminate]).
  - constructor; [reflexivity|]. constructor; [reflexivity|constructor].
Qed.

(** A scalar declared to be a list of items by [index_shape] (no length is checked for -1) is not a single item, and
    there is nothing to index: [data[i]] on a scalar raises TypeError, [len] and any tuple of indices IndexError
    (ndspec.py:177-183, 209-233). *)
Theorem C30_scalar_as_list : forall A (a : A) k, exists sp, ndspec_index (Leaf a) (repeat (-1) (S k)) = Ok sp /\
  nd_is_item sp = false /\ nd_len sp = Err IndexError /\ (forall i, nd_get sp (KInt i) = Err TypeError) /\
  nd_get sp (KTuple []) = Ok (Leaf a) /\ (forall i l, nd_get sp (KTuple (i :: l)) = Err IndexError).
Proof. exact @scalar_as_list. Qed.
Print Assumptions C30_scalar_as_list.
Example C30_scalar_as_list_example : exists sp, ndspec_index (Leaf 7) [-1] = Ok sp /\ nd_get sp (KInt 0) = Err TypeError /\
  nd_get sp (KTuple [0]) = Err IndexError /\ ndspec_index (Leaf 7) [3] = Err IndexError.
Proof. eexists. split; [reflexivity|]. repeat split. Qed.
(** A declared index shape is checked from the left (ndspec.py:178-179): -1 matches anything; the first other entry that
    does not match raises, IndexError when the data has no such dimension, ValueError when the length differs. *)
Theorem C30_index_shape : forall A (d : tree A) is,
  let sh := ragged_shape d in
  let fine r := nth r is 0 = -1 \/ (r < length sh)%nat /\ nth r sh 0 = nth r is 0 in
  ((forall r, (r < length is)%nat -> fine r) -> ndspec_index d is = Ok (mkNd d sh (length is))) /\
  (forall r, (r < length is)%nat -> (forall r', (r' < r)%nat -> fine r') -> nth r is 0 <> -1 ->
     ((length sh <= r)%nat -> ndspec_index d is = Err IndexError) /\
     ((r < length sh)%nat -> nth r sh 0 <> nth r is 0 -> ndspec_index d is = Err ValueError)).
Proof. exact @index_shape_ends. Qed.
Print Assumptions C30_index_shape.
Example C30_index_shape_example : let d := Node [L [1; 2; 3]; L [4; 5; 6]] in
  ragged_shape d = [2; 3] /\ (exists sp, ndspec_index d [-1; 3] = Ok sp /\ nd_pos sp = 2%nat) /\
  ndspec_index d [-1; 4] = Err ValueError /\ ndspec_index d [2; 3; 1] = Err IndexError /\ ndspec_index d [5; 3; 1] = Err ValueError.
Proof. cbv zeta. split; [reflexivity|]. split; [eexists; split; reflexivity|]. repeat split. Qed.


(** * C31 *)
(** "NdSpec.apply(f, a1..ak) exists iff all non-single index shapes agree; then item i is f(a1[i],..,ak[i]); the
    result does not depend on argument grouping and raises ValueError on mismatch."  What is missing from the
    [_partial] theorems: index shapes of two or more axes when an axis is ragged or empty (refuted below), or when
    the results have different depths. *)
Theorem C31_mismatch : forall A B (f : list (tree A) -> res (tree B)) args,
  (forall s, ~ agrees (map nd_index_shape args) s) -> nd_apply f args = Err ValueError.
Proof. exact @apply_mismatch. Qed.
Print Assumptions C31_mismatch.
Theorem C31_items : forall A B (f : list (tree A) -> res (tree B)) args, args <> [] -> Forall (fun a => nd_pos a = 0%nat) args ->
  nd_apply f args = (d <- f (map nd_data args) ;; Ok (mkNd d (ragged_shape d) 0)).
Proof. exact @apply_items. Qed.
Print Assumptions C31_items.
Theorem C31_list_partial : forall A B (f : list (tree A) -> res (tree B)) args n g, Forall simple args ->
  agrees (map nd_index_shape args) [n] ->
  (forall i items, 0 <= i < n -> mapM (fun a => nd_get a (KInt i)) args = Ok items -> f items = Ok (g i)) ->
  exists sp, nd_apply f args = Ok sp /\ nd_index_shape sp = [n] /\ nd_len sp = Ok n /\
    forall i, 0 <= i < n -> nd_get sp (KInt i) = Ok (g i).
Proof. exact @apply_items_at. Qed.
Print Assumptions C31_list_partial.
Theorem C31_list_exact_partial : forall A B (f : list (tree A) -> res (tree B)) args n, Forall simple args ->
  agrees (map nd_index_shape args) [n] ->
  nd_apply f args = (ds <- mapM (fun i => items <- mapM (fun a => nd_get a (KInt i)) args ;; f items) (zrange n) ;;
                     Ok (mkNd (Node ds) (ragged_shape (Node ds)) 1)).
Proof. exact @apply_one_level. Qed.
Print Assumptions C31_list_exact_partial.
Theorem C31_items_exist : forall A (args : list (ndspec A)) n i, Forall simple args -> agrees (map nd_index_shape args) [n] -> 0 <= i < n ->
  exists items, mapM (fun a => nd_get a (KInt i)) args = Ok items.
Proof. exact @agrees_get. Qed.
Print Assumptions C31_items_exist.
Theorem C31_deep_partial : forall A B (f : list (tree A) -> res (tree B)) args s h e, s <> [] -> Forall (fun n => 1 <= n) s ->
  agrees (map nd_index_shape args) s ->
  (forall p, inside p s -> exists items, mapM (fun a => nd_get a (KTuple p)) args = Ok items /\ f items = Ok (h p) /\ length (ragged_shape (h p)) = e) ->
  exists sp, nd_apply f args = Ok sp /\ nd_index_shape sp = s /\ wf sp /\ forall p, inside p s -> nd_get sp (KTuple p) = Ok (h p).
Proof. exact @apply_any. Qed.
Print Assumptions C31_deep_partial.
Theorem C31_deep_items_exist : forall A (args : list (ndspec A)) s a, Forall wf args -> agrees (map nd_index_shape args) s -> In a args ->
  nd_pos a <> 0%nat -> forall p, inside p s -> exists u, nd_get a (KTuple p) = Ok u.
Proof. exact @C31_args_l. Qed.
Print Assumptions C31_deep_items_exist.
Theorem C31_zip_starmap : forall A B (f : list (tree A) -> res (tree B)) args z, args <> [] -> Forall simple args ->
  nd_zip args = Ok z -> nd_starmap f z = nd_apply f args.
Proof. exact @zip_starmap. Qed.
Print Assumptions C31_zip_starmap.
Theorem C31_ragged_refuted : exists (sp : ndspec Z), ndspec_item (Node [Node [Leaf 1; Leaf 2]; Node [Leaf 3]]) [] = Ok sp /\
  agrees (map nd_index_shape [sp]) (nd_index_shape sp) /\
  nd_apply (fun l => Ok (Node l)) [sp] = Err ValueError.
Proof. exact C31_ragged_refuted_l. Qed.
Print Assumptions C31_ragged_refuted.
(** A ragged axis among the agreed index axes is always a ValueError. *)
Theorem C31_ragged : forall A B (f : list (tree A) -> res (tree B)) args s n, agrees (map nd_index_shape args) s -> In n s -> n < 0 ->
  nd_apply f args = Err ValueError.
Proof. exact @apply_ragged. Qed.
Print Assumptions C31_ragged.
(** agg_index_len: the first entry of the agreed shape (0 for items); an index depth that is not allowed in any one
    argument is an AssertionError. *)
Theorem C31_agg_len : forall A (args : list (ndspec A)) allowed,
  (forall al a, allowed = Some al -> In a args -> ~ In (nd_pos a) al -> nd_agg_len args allowed = Err AssertionError) /\
  ((forall al a, allowed = Some al -> In a args -> In (nd_pos a) al) ->
    (forall s, agrees (map nd_index_shape args) s -> nd_agg_len args allowed = Ok (hd 0 s)) /\
    ((forall s, ~ agrees (map nd_index_shape args) s) -> nd_agg_len args allowed = Err ValueError)).
Proof. exact @agg_len_spec. Qed.
Print Assumptions C31_agg_len.
Example C31_agg_len_example : exists a b c, ndspec_item (L [1; 2; 3]) [] = Ok a /\ ndspec_item (Leaf 10) [] = Ok b /\ ndspec_item (L [7; 8]) [] = Ok c /\
  nd_agg_len [a; b] (Some [0; 1]%nat) = Ok 3 /\ nd_agg_len [a; b] (Some [1]%nat) = Err AssertionError /\
  nd_agg_len [b; b] (Some [0]%nat) = Ok 0 /\ nd_agg_len [a; b; c] (Some [0; 1]%nat) = Err ValueError.
Proof. do 3 eexists. repeat (split; [reflexivity|]). reflexivity. Qed.
Definition add_leaves (l : list (tree Z)) : res (tree Z) :=
  match l with [Leaf a; Leaf b] => Ok (Leaf (a + b)) | _ => Err TypeError end.
Example C31_example : exists a b c z r, ndspec_item (L [1; 2; 3]) [] = Ok a /\ ndspec_item (Leaf 10) [] = Ok b /\
  ndspec_item (L [1; 2]) [] = Ok c /\ Forall simple [a; b] /\ agrees (map nd_index_shape [a; b]) [3] /\
  nd_apply add_leaves [a; b] = Ok r /\ nd_get r (KInt 2) = Ok (Leaf 13) /\
  nd_zip [a; b] = Ok z /\ nd_get z (KInt 1) = Ok (L [2; 10]) /\ nd_starmap add_leaves z = Ok r /\
  (forall s, ~ agrees (map nd_index_shape [a; c]) s) /\ nd_apply add_leaves [a; c] = Err ValueError.
Proof.
  do 5 eexists. split; [reflexivity|]. split; [reflexivity|]. split; [reflexivity|]. split.
  { apply Forall_cons; [right; exists [Leaf 1; Leaf 2; Leaf 3]; split; [reflexivity|]; split; [reflexivity|]; exists []; reflexivity|].
    apply Forall_cons; [left; reflexivity|constructor]. }
  split; [split; [now left|]; intros s [<-|[<-|[]]]; auto|]. split; [reflexivity|]. split; [reflexivity|]. split; [reflexivity|].
  split; [reflexivity|]. split; [reflexivity|]. split; [|reflexivity].
  intros s [[<-|[<-|[]]] G].
  - destruct (G [2]) as [E|E]; [right; now left|discriminate|discriminate].
  - destruct (G [3]) as [E|E]; [now left|discriminate|discriminate].
Qed.
Example C31_deep_example : exists a b r, ndspec_item (Node [L [1; 2; 3]; L [4; 5; 6]]) [] = Ok a /\ ndspec_item (Leaf 10) [] = Ok b /\
  agrees (map nd_index_shape [a; b]) [2; 3] /\ wf a /\ wf b /\ nd_apply add_leaves [a; b] = Ok r /\ nd_index_shape r = [2; 3] /\
  nd_get r (KTuple [1; 2]) = Ok (Leaf 16).
Proof.
  do 3 eexists. split; [reflexivity|]. split; [reflexivity|]. split; [split; [now left|]; intros s [<-|[<-|[]]]; auto|].
  split; [split; [reflexivity|simpl; lia]|]. split; [split; [reflexivity|simpl; lia]|]. repeat split.
Qed.

(** * C32 *)
(** "spec.map(f) has the same index shape and its items are f of the items."  Holds for items and one-level lists
    with any f; for deeper indices when all results have the same depth (leaves, e = 0, or non-empty index lists);
    refuted otherwise. *)
Theorem C32_item : forall A B (f : tree A -> res (tree B)) (sp : ndspec A), nd_pos sp = 0%nat ->
  nd_map f sp = (d <- f (nd_data sp) ;; Ok (mkNd d (ragged_shape d) 0)).
Proof. exact @map_item. Qed.
Print Assumptions C32_item.
Theorem C32_list : forall A B (f : tree A -> res (tree B)) (sp : ndspec A) l, one_level sp l ->
  nd_map f sp = (ds <- mapM f l ;; Ok (mkNd (Node ds) (ragged_shape (Node ds)) 1)).
Proof. exact @map_one_level. Qed.
Print Assumptions C32_list.
Theorem C32_list_access : forall A (sp : ndspec A) l, one_level sp l ->
  nd_len sp = Ok (len l) /\ nd_iter sp = Ok l /\ nd_index_shape sp = [len l] /\
  (forall i, nd_get sp (KInt i) = pyidx l i) /\ (forall i, nd_get sp (KTuple [i]) = pyidx l i) /\
  (forall i j r, nd_get sp (KTuple (i :: j :: r)) = Err IndexError).
Proof. exact @one_level_access. Qed.
Print Assumptions C32_list_access.
(** Identity, composition, and apply on one spec; starmap unpacks lists and raises TypeError on scalars. *)
Theorem C32_identity : forall A (sp : ndspec A), simple sp ->
  nd_map (fun t => Ok t) sp = Ok (mkNd (nd_data sp) (ragged_shape (nd_data sp)) (nd_pos sp)).
Proof. exact @map_identity. Qed.
Print Assumptions C32_identity.
Theorem C32_compose : forall A B C (f : tree A -> res (tree B)) (g : tree B -> res (tree C)) (sp : ndspec A) sp', simple sp -> nd_map f sp = Ok sp' ->
  nd_map g sp' = nd_map (fun t => u <- f t ;; g u) sp.
Proof. exact @map_compose. Qed.
Print Assumptions C32_compose.
Theorem C32_apply_single : forall A B (f : tree A -> res (tree B)) (sp : ndspec A) h, simple sp -> (forall t, h [t] = f t) -> nd_apply h [sp] = nd_map f sp.
Proof. exact @apply_single. Qed.
Print Assumptions C32_apply_single.
Theorem C32_starmap_item : forall A B (f : list (tree A) -> res (tree B)) (sp : ndspec A), nd_pos sp = 0%nat ->
  (forall l, nd_data sp = Node l -> nd_starmap f sp = (d <- f l ;; Ok (mkNd d (ragged_shape d) 0))) /\
  (forall v, nd_data sp = Leaf v -> nd_starmap f sp = Err TypeError).
Proof. exact @starmap_item. Qed.
Print Assumptions C32_starmap_item.
Theorem C32_starmap_list : forall A B (f : list (tree A) -> res (tree B)) (sp : ndspec A) ls, one_level sp (map Node ls) ->
  nd_starmap f sp = (ds <- mapM f ls ;; Ok (mkNd (Node ds) (ragged_shape (Node ds)) 1)).
Proof. exact @starmap_list. Qed.
Print Assumptions C32_starmap_list.
Theorem C32_starmap_scalar : forall A B (f : list (tree A) -> res (tree B)) (sp : ndspec A) ls v r, one_level sp (map Node ls ++ Leaf v :: r) ->
  nd_starmap f sp = (ds <- mapM f ls ;; Err TypeError).
Proof. exact @starmap_scalar. Qed.
Print Assumptions C32_starmap_scalar.
Definition count_items (l : list (tree Z)) : res (tree Z) := Ok (Leaf (Z.of_nat (length l))).
Example C32_laws_example : exists a b, ndspec_index (Node [L [1; 2]; L [3]; Node [Leaf 4; L [5]]]) [3] = Ok a /\ one_level a (map Node [[Leaf 1; Leaf 2]; [Leaf 3]; [Leaf 4; L [5]]]) /\
  simple a /\ (exists r, nd_starmap count_items a = Ok r /\ nd_iter r = Ok [Leaf 2; Leaf 1; Leaf 2]) /\
  ndspec_index (Node [L [1; 2]; Leaf 7]) [2] = Ok b /\ one_level b (map Node [[Leaf 1; Leaf 2]] ++ Leaf 7 :: []) /\ nd_starmap count_items b = Err TypeError.
Proof.
  do 2 eexists. split; [reflexivity|]. split; [split; [reflexivity|]; split; [reflexivity|]; eexists; reflexivity|].
  split; [right; exists [L [1; 2]; L [3]; Node [Leaf 4; L [5]]]; split; [reflexivity|]; split; [reflexivity|]; eexists; reflexivity|].
  split; [eexists; split; reflexivity|]. split; [reflexivity|]. split; [split; [reflexivity|]; split; [reflexivity|]; eexists; reflexivity|]. reflexivity.
Qed.
Theorem C32_deep_partial : forall A B (f : tree A -> res (tree B)) (sp : ndspec A) e, wf sp ->
  (forall u, In u (nodes_at (nd_pos sp) (nd_data sp)) -> exists v, f u = Ok v /\ length (ragged_shape v) = e) ->
  e = 0%nat \/ deep (nd_pos sp) (nd_data sp) ->
  exists sp', nd_map f sp = Ok sp' /\ nd_index_shape sp' = nd_index_shape sp /\ wf sp' /\
    forall p, length p = nd_pos sp -> nd_get sp' (KTuple p) = (u <- nd_get sp (KTuple p) ;; f u).
Proof. exact @map_any. Qed.
Print Assumptions C32_deep_partial.
Theorem C32_depth_refuted : exists (sp : ndspec Z) (f : tree Z -> res (tree Z)),
  ndspec_item (Node [Node [Leaf 1]; Node [Leaf 2]]) [] = Ok sp /\ nd_index_shape sp = [2; 1] /\
  (forall t, exists v, f t = Ok v) /\ nd_map f sp = Err IndexError.
Proof. exact C32_depth_refuted_l. Qed.
Print Assumptions C32_depth_refuted.
Definition twice (t : tree Z) : res (tree Z) := Ok (Node [t; t]).
Example C32_example : exists a b r q, ndspec_item (Node [L [1; 2]; L [3; 4]; L [5; 6]]) [2] = Ok a /\
  one_level a [L [1; 2]; L [3; 4]; L [5; 6]] /\ nd_map twice a = Ok r /\ nd_index_shape r = [3] /\
  nd_get r (KInt 1) = Ok (Node [L [3; 4]; L [3; 4]]) /\
  ndspec_item (Node [L [1; 2; 3]; L [4]]) [] = Ok b /\ wf b /\ nd_index_shape b = [2; -1] /\ deep (nd_pos b) (nd_data b) /\
  nd_map twice b = Ok q /\ nd_index_shape q = [2; -1] /\ nd_get q (KTuple [0; 2]) = Ok (L [3; 3]).
Proof.
  do 4 eexists. split; [reflexivity|]. split; [split; [reflexivity|]; split; [reflexivity|]; exists [2]; reflexivity|].
  split; [reflexivity|]. split; [reflexivity|]. split; [reflexivity|]. split; [reflexivity|].
  split; [split; [reflexivity|simpl; lia]|]. split; [reflexivity|]. split; [|repeat split].
  intros [|[|k]] u Hk Hu; simpl in Hk, Hu; [destruct Hu as [<-|[]]|destruct Hu as [<-|[<-|[]]]|lia];
    eexists; (split; [reflexivity|discriminate]).
Qed.

(** * C33 *)
Theorem C33_shape : forall A (t : tree A), has_shape t (ragged_shape t) /\
  forall s, has_shape t s -> length s = length (ragged_shape t) -> s = ragged_shape t.
Proof. exact @C33_l. Qed.
Print Assumptions C33_shape.
Theorem C33_ndim : forall A (c : tree A) l,
  ((forall u, In u (c :: l) -> length (ragged_shape u) = length (ragged_shape c)) ->
     length (ragged_shape (Node (c :: l))) = S (length (ragged_shape c))) /\
  ((exists u, In u (c :: l) /\ length (ragged_shape u) <> length (ragged_shape c)) -> length (ragged_shape (Node (c :: l))) = 1%nat).
Proof. exact @ragged_depth_node. Qed.
Print Assumptions C33_ndim.
Example C33_example : ragged_shape (Node [L [1; 2]; L [3]]) = [2; -1] /\ ragged_shape (Node [Leaf 1; L [2; 3]]) = [2] /\
  ragged_shape (Node [Node [L [1]; L [2]]; Node [L [3]; L [4]]; Node [L [5]; L [6; 7]]]) = [3; 2; -1] /\ ragged_shape (Node [L []; L []]) = [2; 0].
Proof. repeat split. Qed.

(** * C34 *)
(** "get_ragged_ndarray(data, strict=False) returns a tree in which every leaf is at the same depth, equal to the
    maximal depth of the input, and which has the same leaves in the same order."  The second half holds for all
    data; the first fails when the items of a list have equal depths but were themselves levelled, because the
    levelled items are dropped. *)
Theorem C34_leaves : forall A (t : tree A), leaves (fst (ragged_loose t)) = leaves t /\ length (snd (ragged_loose t)) = depth t.
Proof. exact @C34_leaves_l. Qed.
Print Assumptions C34_leaves.
Theorem C34_level_partial : forall A (l : list (tree A)), l <> [] -> Forall (fun c => even (depth c) c) l ->
  levelled (depth (Node l)) (fst (ragged_loose (Node l))) /\ has_shape (fst (ragged_loose (Node l))) (snd (ragged_loose (Node l))) /\
  leaves (fst (ragged_loose (Node l))) = leaves (Node l).
Proof. exact @C34_partial_l. Qed.
Print Assumptions C34_level_partial.
Theorem C34_step_partial : forall A (l : list (tree A)), l <> [] ->
  Forall (fun c => even (depth c) (fst (ragged_loose c)) /\ has_shape (fst (ragged_loose c)) (snd (ragged_loose c))) l ->
  (exists c c', In c l /\ In c' l /\ depth c <> depth c') ->
  even (depth (Node l)) (fst (ragged_loose (Node l))) /\ has_shape (fst (ragged_loose (Node l))) (snd (ragged_loose (Node l))).
Proof. exact @C34_node_partial_l. Qed.
Print Assumptions C34_step_partial.
(** Exactly which data come back with all leaves at the maximal depth. *)
Theorem C34_exact : forall A (t : tree A), levelled (depth t) (fst (ragged_loose t)) <-> ~ stuck t.
Proof. exact @loose_exact. Qed.
Print Assumptions C34_exact.
Example C34_exact_example : stuck (Node [Node [Leaf 1; L [2]]]) /\ ~ stuck (Node [Node [Leaf 1; L [2]]; Leaf 3]).
Proof.
  split.
  - apply stuck_here.
    + intros c c' [<-|[]] [<-|[]]. reflexivity.
    + rewrite <- lev_levelled. cbn. intros H. inversion H as [|? ? G _]. inversion G as [|? ? X _]. exact X.
  - rewrite <- loose_exact, <- lev_levelled. cbn. repeat constructor.
Qed.
Theorem C34_nested_refuted : exists t : tree Z, ~ levelled (depth t) (fst (ragged_loose t)).
Proof. exact C34_refuted_l. Qed.
Print Assumptions C34_nested_refuted.
Example C34_example : Forall (fun c => even (depth c) c) [Leaf 1; L [2; 3]; Node [L [4]; L [5; 6]]] /\
  ragged_loose (Node [Leaf 1; L [2; 3]; Node [L [4]; L [5; 6]]]) =
    (Node [Node [L [1]]; Node [L [2; 3]]; Node [L [4]; L [5; 6]]], [3; -1; -1]) /\
  ragged_loose (Node [Node [Leaf 1; L [2]]; Leaf 3]) = (Node [Node [L [1]; L [2]]; Node [L [3]]], [2; -1; 1]).
Proof. split; [|split; reflexivity]. repeat (apply Forall_cons || apply Forall_nil); simpl; repeat constructor; discriminate. Qed.

(** * C35 *)
(** "When expand_ragged_ndarray(data, old, new) succeeds, the result has the returned shape, every non -1 entry of
    new is met, and each leaf is the broadcast source leaf; it raises on non-singleton mismatch."  Proved for data
    without empty lists and targets -1 or positive; refuted for mixed empty and non-empty lists and for target 0. *)
Theorem C35_result_partial : forall A (data : tree A) new r s,
  let old := ragged_shape data in
  Forall target_ok new -> deep (length old) data -> expand_ragged data old new = Ok (r, s) ->
  expanded (full_target old new) (padded data old new) r s.
Proof. exact @C35_ok_l. Qed.
Print Assumptions C35_result_partial.
Theorem C35_raises_partial : forall A (data : tree A) new,
  let old := ragged_shape data in
  Forall target_ok new -> deep (length old) data ->
  ((exists r s, expand_ragged data old new = Ok (r, s)) <-> fits (full_target old new) (padded data old new)) /\
  (~ fits (full_target old new) (padded data old new) -> expand_ragged data old new = Err ValueError).
Proof. exact @C35_iff_l. Qed.
Print Assumptions C35_raises_partial.
Theorem C35_leading_axes : forall A j (t : tree A) p, (j <= length p)%nat -> bget p (lift j t) = bget (skipn j p) t.
Proof. exact @bget_lift. Qed.
Print Assumptions C35_leading_axes.
Theorem C35_empty_refuted : exists (data r : tree Z) s, expand_ragged data (ragged_shape data) [2] = Ok (r, s) /\
  exists l, In (Node l) (nodes_at 1 r) /\ len l <> 2.
Proof. exact C35_mixed_refuted_l. Qed.
Print Assumptions C35_empty_refuted.
Theorem C35_zero_refuted : exists (data : tree Z), ragged_shape data = [3] /\ expand_ragged data (ragged_shape data) [0] = Ok (Node [], [0]).
Proof. exact C35_zero_refuted_l. Qed.
Print Assumptions C35_zero_refuted.
(** A nonempty list of lists is cut down to the empty list when the inner lengths agree, and raises otherwise. *)
Theorem C35_to_none : forall A (u : list (tree A)) l k, expand_ragged (Node (map Node (u :: l))) [len (u :: l); k] [0; -1] =
  if forallb (fun v => len v =? len u) l then Ok (Node [], [0; len u]) else Err ValueError.
Proof. exact @expand_to_none. Qed.
Print Assumptions C35_to_none.
Example C35_to_none_example : let data := Node [L [1; 2]; L [3]] in
  ragged_shape data = [2; -1] /\ expand_ragged data [2; -1] [0; -1] = Err ValueError /\
  expand_ragged (Node [L [1; 2]; L [3; 4]]) [2; 2] [0; -1] = Ok (Node [], [0; 2]).
Proof. cbv zeta. split; [reflexivity|]. split; reflexivity. Qed.
Example C35_example : let data := Node [L [1; 2]; L [3]; L [4; 5]] in
  ragged_shape data = [3; -1] /\ deep 2 data /\ Forall target_ok [2; -1; 2] /\
  expand_ragged data [3; -1] [2; -1; 2] =
    Ok (Node [Node [L [1; 2]; L [3; 3]; L [4; 5]]; Node [L [1; 2]; L [3; 3]; L [4; 5]]], [2; 3; 2]) /\
  expand_ragged data [3; -1] [3; 3] = Err ValueError /\ ~ fits [3; 3] data.
Proof.
  cbv zeta. split; [reflexivity|]. split; [|split; [|split; [reflexivity|split; [reflexivity|]]]].
  - intros [|[|k]] u Hk Hu; simpl in Hu; [destruct Hu as [<-|[]]|destruct Hu as [<-|[<-|[<-|[]]]]|lia];
      eexists; (split; [reflexivity|discriminate]).
  - constructor; [right; lia|constructor; [now left|constructor; [right; lia|constructor]]].
  - intros H. specialize (H 1%nat [Leaf 1; Leaf 2] ltac:(simpl; lia) ltac:(simpl; auto)). unfold len in H. simpl in H. lia.
Qed.

(** * C73: argument formats *)
Theorem C73_pair_scalar : forall A (a : A), exists sp, ndspec_item (Leaf a) [2] = Ok sp /\ represents pair_tree sp (NItem (a, a)).
Proof. exact @pair_scalar. Qed.
Print Assumptions C73_pair_scalar.
Theorem C73_pair_item : forall A (p : A * A), exists sp, ndspec_item (pair_tree p) [2] = Ok sp /\ represents pair_tree sp (NItem p).
Proof. exact @pair_item. Qed.
Print Assumptions C73_pair_item.
Theorem C73_pair_list : forall A (l : list (A * A)), l <> [] ->
  exists sp, ndspec_item (Node (map pair_tree l)) [2] = Ok sp /\ represents pair_tree sp (NList l).
Proof. exact @pair_list. Qed.
Print Assumptions C73_pair_list.
Theorem C73_pair_singletons : forall A (l : list A), l <> [] ->
  exists sp, ndspec_item (Node (map (fun a => Node [Leaf a]) l)) [2] = Ok sp /\ represents pair_tree sp (NList (map (fun a => (a, a)) l)).
Proof. exact @pair_singletons. Qed.
Print Assumptions C73_pair_singletons.
Theorem C73_pair_bad : forall A (k : list A), len k <> 1 -> len k <> 2 -> ndspec_item (seq_tree k) [2] = Err ValueError.
Proof. exact @pair_bad. Qed.
Print Assumptions C73_pair_bad.
Theorem C73_kernel_item : forall A (k : list A), exists sp, ndspec_item (seq_tree k) [-1] = Ok sp /\ represents seq_tree sp (NItem k).
Proof. exact @kernel_item. Qed.
Print Assumptions C73_kernel_item.
Theorem C73_kernel_list : forall A (l : list (list A)), l <> [] ->
  exists sp, ndspec_item (Node (map seq_tree l)) [-1] = Ok sp /\ represents seq_tree sp (NList l).
Proof. exact @kernel_list. Qed.
Print Assumptions C73_kernel_list.
Theorem C73_scalar_item : forall A (a : A), exists sp, ndspec_item (Leaf a) [] = Ok sp /\ represents Leaf sp (NItem a).
Proof. exact @scalar_item_rep. Qed.
Print Assumptions C73_scalar_item.
Theorem C73_scalar_list : forall A (l : list A), exists sp, ndspec_item (Node (map Leaf l)) [] = Ok sp /\ represents Leaf sp (NList l).
Proof. exact @scalar_list_rep. Qed.
Print Assumptions C73_scalar_list.
(** The operations of the modules on represented specs. *)
Theorem C73_get : forall A X (enc : X -> tree A) sp s i, represents enc sp s -> nd_get sp (KInt i) = (x <- nds_get s i ;; Ok (enc x)).
Proof. exact @rep_get. Qed.
Print Assumptions C73_get.
Theorem C73_agg : forall A (sps : list (ndspec A)) l, l <> [] -> map nd_index_shape sps = map shape_of l ->
  nd_agg_len sps None = agg_index_len l.
Proof. exact @agg_len_link. Qed.
Print Assumptions C73_agg.
Theorem C73_shape : forall A X (enc : X -> tree A) sp s, represents enc sp s -> nd_index_shape sp = shape_of (nds_ishape s).
Proof. exact @rep_shape. Qed.
Print Assumptions C73_shape.
Theorem C73_map : forall A X Y (enc : X -> tree A) (enc' : Y -> tree A) (f : tree A -> res (tree A)) (g : X -> res Y) sp s,
  represents enc sp s -> (forall x, f (enc x) = (y <- g x ;; Ok (enc' y))) ->
  match nd_map f sp, PadModel.nds_map g s with
  | Ok sp', Ok s' => represents enc' sp' s'
  | Err e, Err e' => e = e'
  | _, _ => False
  end.
Proof. exact @map_link. Qed.
Print Assumptions C73_map.
Theorem C73_apply : forall A X Y V W (ex : X -> tree A) (ey : Y -> tree A) (ez : V -> tree A) (ew : W -> tree A) f g a b c sa sb sc,
  represents ex a sa -> represents ey b sb -> represents ez c sc ->
  (forall x y z, f [ex x; ey y; ez z] = (w <- g x y z ;; Ok (ew w))) ->
  match nd_apply f [a; b; c], nds_apply3 g sa sb sc with
  | Ok sp', Ok s' => represents ew sp' s'
  | Err e, Err e' => e = e'
  | _, _ => False
  end.
Proof. exact @apply3_link. Qed.
Print Assumptions C73_apply.
(** Wrapping a spec again keeps it, whatever item_shape is asked for: the modules can pass specs on. *)
Theorem C73_copy : forall A X (enc : X -> tree A) sp s item_shape, represents enc sp s ->
  exists sp', ndspec_copy sp item_shape = Ok sp' /\ represents enc sp' s.
Proof. exact @copy_rep. Qed.
Print Assumptions C73_copy.
Example C73_copy_example : exists a, ndspec_item (Node [L [1; 2]; L [0; 3]]) [2] = Ok a /\ represents pair_tree a (NList [(1, 2); (0, 3)]) /\
  ndspec_copy a [] = Ok a /\ ndspec_item (nd_data a) [] <> Ok a.
Proof. eexists. split; [reflexivity|]. split; [split; [reflexivity|split; [reflexivity|exists [2]; reflexivity]]|]. split; [reflexivity|]. vm_compute. discriminate. Qed.
Example C73_example : exists a b c, ndspec_item (Node [L [1; 2]; L [0; 3]]) [2] = Ok a /\ represents pair_tree a (NList [(1, 2); (0, 3)]) /\
  ndspec_item (Node [L [1; 2; 1]; L [5]]) [-1] = Ok b /\ represents seq_tree b (NList [[1; 2; 1]; [5]]) /\
  ndspec_item (Leaf 4) [] = Ok c /\ represents Leaf c (NItem 4) /\
  nd_agg_len [a; b; c] None = Ok 2 /\ ndspec_item (L [1; 2; 3]) [2] = Err ValueError.
Proof.
  do 3 eexists. split; [reflexivity|]. split; [split; [reflexivity|split; [reflexivity|exists [2]; reflexivity]]|].
  split; [reflexivity|]. split; [split; [reflexivity|split; [reflexivity|exists [-1]; reflexivity]]|]. repeat split.
Qed.
