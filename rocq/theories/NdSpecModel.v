(** Model of utils/ragged.py and utils/ndspec.py on nested lists and tuples.

    A Python value is a tree: lists and tuples are [Node]s (the code never distinguishes them), every
    other object is a [Leaf].  Torch tensors and numpy arrays as data are in RaggedArr.v (here without is_scalar's
    second test and the branches for arrays). *)
From Verif Require Export Base.
Open Scope Z_scope.

Inductive tree (A : Type) := Leaf (a : A) | Node (l : list (tree A)).
Arguments Leaf {A} a.
Arguments Node {A} l.

Definition len {A} (l : list A) : Z := Z.of_nat (length l).

(** ragged.py:115-122: one entry of the common shape, -1 if the lengths differ. *)
Definition agree (ss : list (list Z)) (i : nat) : Z :=
  match ss with
  | [] => -1
  | s :: r => if forallb (fun s' => nth i s' 0 =? nth i s 0) r then nth i s 0 else -1
  end.
Definition common (ss : list (list Z)) (nd : nat) : list Z := map (agree ss) (seq 0 nd).
(** len(ndim_set) == 1 *)
Definition same_ndim (ss : list (list Z)) : bool :=
  match ss with [] => true | s :: r => forallb (fun s' => Nat.eqb (length s') (length s)) r end.
Definition head_ndim (ss : list (list Z)) : nat := match ss with [] => 0 | s :: _ => length s end.

(** ragged.py:26-124 [get_ragged_ndarray] with strict=True: the data are returned as they are. *)
Fixpoint ragged_shape {A} (t : tree A) : list Z :=
  match t with
  | Leaf _ => []
  | Node l =>
    let ss := map ragged_shape l in
    match ss with
    | [] => [0]
    | _ => len l :: common ss (if same_ndim ss then head_ndim ss else 0)
    end
  end.

(** item = (item,), j times *)
Fixpoint lift {A} (j : nat) (t : tree A) : tree A := match j with O => t | S j' => lift j' (Node [t]) end.
Definition max_ndim (ss : list (list Z)) : nat := fold_right (fun s m => Nat.max (length s) m) O ss.
(** [get_ragged_ndarray] with strict=False.  [data] is replaced by the tuple of processed items only
    when the depths of the items differ (ragged.py:100-110). *)
Fixpoint ragged_loose {A} (t : tree A) : tree A * list Z :=
  match t with
  | Leaf _ => (t, [])
  | Node l =>
    let rs := map ragged_loose l in
    let items := map fst rs in
    let ss := map snd rs in
    match ss with
    | [] => (t, [0])
    | _ =>
      if same_ndim ss then (t, len l :: common ss (head_ndim ss))
      else let nd := max_ndim ss in
           (Node (map (fun r => lift (nd - length (snd r)) (fst r)) rs),
            len l :: common (map (fun s => repeat 1 (nd - length s) ++ s) ss) nd)
    end
  end.

(** ragged.py:127-185 [_recursive_expand]: data, shape, whether modified.  [np.empty] of a shape with a
    0 in front is an empty sequence; negative entries raise ValueError. *)
Fixpoint recursive_expand {A} (target : list Z) (t : tree A) : res (tree A * list Z * bool) :=
  match target with
  | [] => Ok (t, [], false)
  | n :: target' =>
    match t with
    | Leaf _ => Ok (t, [], false)
    | Node [] => Ok (t, [0], false)
    | Node l =>
      rs <- mapM (recursive_expand target') l ;;
      let items := map (fun r => fst (fst r)) rs in
      let ss := map (fun r => snd (fst r)) rs in
      let modified := existsb snd rs in
      let arr := if modified then items else l in
      _ <- assertb (same_ndim ss) ;;
      let item_shape := common ss (head_ndim ss) in
      if (n =? -1) || (n =? len arr) then Ok (Node arr, len arr :: item_shape, modified)
      else if n =? 0 then
        if existsb (fun d => d <? 0) item_shape then Err ValueError else Ok (Node [], 0 :: item_shape, true)
      else match arr with
           | [c] => Ok (Node (repeat c (Z.to_nat n)), n :: item_shape, true)
           | _ => Err ValueError
           end
    end
  end.

(** ragged.py:188-193 [_check_zero_length] *)
Definition zero_length (old_shape new_shape : list Z) : bool :=
  existsb (fun p => (fst p =? 0) && (0 <? snd p)) (combine (rev old_shape) (rev new_shape)).

(** ragged.py:241-247: wrap in the leading axes of the new shape, innermost first. *)
Definition wrap {A} (n : Z) (d : tree A * list Z) : tree A * list Z :=
  if n =? -1 then (Node [fst d], 1 :: snd d) else (Node (repeat (fst d) (Z.to_nat n)), n :: snd d).

(** ragged.py:196-254 [expand_ragged_ndarray] *)
Definition expand_ragged {A} (data : tree A) (old_shape new_shape : list Z) : res (tree A * list Z) :=
  if all2 Z.eqb old_shape new_shape then Ok (data, old_shape)
  else if zero_length old_shape new_shape then Err ValueError
  else
    let old_ndim := length old_shape in
    let new_ndim := length new_shape in
    if Nat.ltb old_ndim new_ndim then
      r <- recursive_expand (skipn (new_ndim - old_ndim) new_shape) data ;;
      Ok (fold_right wrap (fst r) (firstn (new_ndim - old_ndim) new_shape))
    else
      r <- recursive_expand (repeat (-1) (old_ndim - new_ndim) ++ new_shape) data ;;
      Ok (fst r).

(** ragged.py:257-260 [_recursive_apply]; iterating over a non-iterable item raises TypeError. *)
Fixpoint recursive_apply {A B} (func : tree A -> res (tree B)) (depth : nat) (t : tree A) : res (tree B) :=
  match depth with
  | O => func t
  | S d => match t with
           | Leaf _ => Err TypeError
           | Node l => l' <- mapM (recursive_apply func d) l ;; Ok (Node l')
           end
  end.

(** * ndspec.py *)
Record ndspec (A : Type) := mkNd { nd_data : tree A; nd_shape : list Z; nd_pos : nat }.
Arguments mkNd {A}. Arguments nd_data {A}. Arguments nd_shape {A}. Arguments nd_pos {A}.

(** ndspec.py:136-183 [__init__] without index_shape *)
Definition ndspec_item {A} (data : tree A) (item_shape : list Z) : res (ndspec A) :=
  r <- expand_ragged data (ragged_shape data) item_shape ;;
  let '(data, shape) := r in
  Ok (mkNd data shape (length shape - length item_shape)).
(** [__init__] with index_shape: [all(length == -1 or shape[i] == length ...)] stops at the first False. *)
Fixpoint check_index (shape index_shape : list Z) : res bool :=
  match index_shape with
  | [] => Ok true
  | n :: r =>
    if n =? -1 then check_index (tl shape) r
    else match shape with
         | [] => Err IndexError
         | s :: shape' => if s =? n then check_index shape' r else Ok false
         end
  end.
Definition ndspec_index {A} (data : tree A) (index_shape : list Z) : res (ndspec A) :=
  let shape := ragged_shape data in
  ok <- check_index shape index_shape ;;
  if ok then Ok (mkNd data shape (length index_shape)) else Err ValueError.
(** [NdSpec(spec)]: a copy, the other arguments are ignored (ndspec.py:165-169). *)
Definition ndspec_copy {A} (s : ndspec A) (item_shape : list Z) : res (ndspec A) := Ok s.

(** ndspec.py:185-207 *)
Definition nd_index_shape {A} (s : ndspec A) : list Z := firstn (nd_pos s) (nd_shape s).
Definition nd_item_shape {A} (s : ndspec A) : list Z := skipn (nd_pos s) (nd_shape s).
Definition nd_is_item {A} (s : ndspec A) : bool := Nat.eqb (nd_pos s) 0.
(** ndspec.py:209-218 [__len__] *)
Definition nd_len {A} (s : ndspec A) : res Z := if nd_is_item s then Ok 0 else pyidx (nd_shape s) 0.

(** [t[i]] *)
Definition tree_idx {A} (t : tree A) (i : Z) : res (tree A) :=
  match t with Leaf _ => Err TypeError | Node l => pyidx l i end.
Inductive key := KInt (i : Z) | KTuple (l : list Z).
(** ndspec.py:220-233 [__getitem__] *)
Definition nd_get {A} (s : ndspec A) (k : key) : res (tree A) :=
  if nd_is_item s then Ok (nd_data s)
  else match k with
       | KInt i => tree_idx (nd_data s) i
       | KTuple l =>
         if Nat.ltb (length (nd_index_shape s)) (length l) then Err IndexError
         else fold_left (fun r i => t <- r ;; tree_idx t i) l (Ok (nd_data s))
       end.
(** ndspec.py:235-239 [__iter__] *)
Definition nd_iter {A} (s : ndspec A) : res (list (tree A)) :=
  if nd_is_item s then Ok [nd_data s] else n <- nd_len s ;; mapM (fun i => nd_get s (KInt i)) (zrange n).

(** ndspec.py:244-258 [map] *)
Definition nd_map {A B} (func : tree A -> res (tree B)) (s : ndspec A) : res (ndspec B) :=
  d <- recursive_apply func (length (nd_shape s) - length (nd_item_shape s)) (nd_data s) ;;
  ndspec_index d (nd_index_shape s).
(** ndspec.py:260-280 [starmap]; [func( *item )] needs an iterable item. *)
Definition nd_starmap {A B} (func : list (tree A) -> res (tree B)) (s : ndspec A) : res (ndspec B) :=
  nd_map (fun item => match item with Leaf _ => Err TypeError | Node l => func l end) s.

(** ndspec.py:301-345 [agg_index_shape]: all index shapes equal, or equal up to () *)
Definition shape_eqb (a b : list Z) : bool := all2 Z.eqb a b.
Definition agg_shape (shapes : list (list Z)) : res (list Z) :=
  match nodup (list_eq_dec Z.eq_dec) shapes with
  | [] => Err ValueError
  | [s] => Ok s
  | [s; s'] => if shape_eqb s [] then Ok s' else if shape_eqb s' [] then Ok s else Err ValueError
  | _ => Err ValueError
  end.
(** ndspec.py:347-380 [agg_index_len] *)
Definition nd_agg_len {A} (args : list (ndspec A)) (allowed : option (list nat)) : res Z :=
  _ <- match allowed with
       | None => Ok tt
       | Some al => assertb (forallb (fun a => existsb (Nat.eqb (nd_pos a)) al) args)
       end ;;
  s <- agg_shape (map nd_index_shape args) ;;
  match s with [] => Ok 0 | n :: _ => Ok n end.

(** [np.empty(index_shape, dtype=object)] filled in the order of [product(...)], then [tolist()].
    A negative entry raises ValueError in numpy. *)
Fixpoint fill_index {B} (index_shape : list Z) (done : list Z) (f : list Z -> res (tree B)) : res (tree B) :=
  match index_shape with
  | [] => f done
  | n :: r => l <- mapM (fun i => fill_index r (done ++ [i]) f) (zrange n) ;; Ok (Node l)
  end.
(** ndspec.py:382-416 [apply] *)
Definition nd_apply {A B} (func : list (tree A) -> res (tree B)) (args : list (ndspec A)) : res (ndspec B) :=
  index_shape <- agg_shape (map nd_index_shape args) ;;
  d <- match index_shape with
       | [] => func (map nd_data args)
       | _ => if existsb (fun n => n <? 0) index_shape then Err ValueError
              else fill_index index_shape [] (fun i => items <- mapM (fun a => nd_get a (KTuple i)) args ;; func items)
       end ;;
  ndspec_index d index_shape.
(** ndspec.py:282-299 [zip] *)
Definition nd_zip {A} (args : list (ndspec A)) : res (ndspec A) := nd_apply (fun l => Ok (Node l)) args.
