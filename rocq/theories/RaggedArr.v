(** Model of utils/ragged.py and utils/ndspec.py on data that contain numeric numpy arrays and torch
    tensors besides nested lists and tuples.  Not modelled: object arrays; dtype and device. *)
From Verif Require Export Tensor NdSpecModel.
Open Scope Z_scope.

(** A scalar object, a list or tuple, or a numeric array ([torch] tells a tensor from a numpy array). *)
Inductive val (A : Type) := VLeaf (a : A) | VList (l : list (val A)) | VArr (torch : bool) (x : tensor A).
Arguments VLeaf {A} a.
Arguments VList {A} l.
Arguments VArr {A} torch x.

(** ragged.py:26-124 [get_ragged_ndarray] with strict=True: arrays report their shape (75-83). *)
Fixpoint vshape {A} (v : val A) : list Z :=
  match v with
  | VLeaf _ => []
  | VArr _ x => shp x
  | VList l =>
    let ss := map vshape l in
    match ss with
    | [] => [0]
    | _ => Z.of_nat (length l) :: common ss (if same_ndim ss then head_ndim ss else 0)
    end
  end.

(** x with the entries of axes of length 1 repeated *)
Definition spread {A} (x : tensor A) (sh : list Z) : tensor A :=
  mkT sh (fun i => at_ x (map2 (fun n k => if n =? 1 then 0 else k) (shp x) i)).
Definition stretches (o n : Z) : bool := (o =? n) || (o =? 1).
(** ragged.py:143-145: -1 keeps the length (zip stops at the shorter list); np.broadcast_to *)
Definition keep_len (o n : Z) : Z := if n =? -1 then o else n.
Definition np_broadcast {A} (x : tensor A) (target : list Z) : res (tensor A) :=
  let sh := map2 keep_len (shp x) target in
  if all2 stretches (shp x) sh && forallb (fun n => 0 <=? n) sh then Ok (spread x sh) else Err ValueError.
(** ragged.py:137-139: tensor.expand; -1 is not allowed in a new leading axis *)
Definition torch_expand {A} (x : tensor A) (target : list Z) : res (tensor A) :=
  if Nat.ltb (length target) (length (shp x)) then Err RuntimeError else
  let k := (length target - length (shp x))%nat in
  let lead := firstn k target in
  let sh := map2 keep_len (shp x) (skipn k target) in
  if all2 stretches (shp x) sh && forallb (fun n => 0 <=? n) (lead ++ sh)
  then Ok (mkT (lead ++ sh) (fun i => at_ (spread x sh) (skipn k i))) else Err RuntimeError.
Definition broadcast {A} (torch : bool) (x : tensor A) (target : list Z) : res (tensor A) :=
  if torch then torch_expand x target else np_broadcast x target.

(** ragged.py:127-185 [_recursive_expand]; np.empty is a numpy array of unknown entries. *)
Fixpoint vexpand {A} (junk : list Z -> A) (target : list Z) (v : val A) : res (val A * list Z * bool) :=
  match target with
  | [] => Ok (v, [], false)
  | n :: target' =>
    match v with
    | VArr torch x => r <- broadcast torch x target ;; Ok (VArr torch r, shp r, negb (all2 Z.eqb (shp r) (shp x)))
    | VLeaf _ => Ok (v, [], false)
    | VList [] => Ok (v, [0], false)
    | VList l =>
      rs <- mapM (vexpand junk target') l ;;
      let items := map (fun r => fst (fst r)) rs in
      let ss := map (fun r => snd (fst r)) rs in
      let modified := existsb snd rs in
      let arr := if modified then items else l in
      _ <- assertb (same_ndim ss) ;;
      let item_shape := common ss (head_ndim ss) in
      if (n =? -1) || (n =? Z.of_nat (length arr)) then Ok (VList arr, Z.of_nat (length arr) :: item_shape, modified)
      else if n =? 0 then
        if existsb (fun d => d <? 0) item_shape then Err ValueError
        else Ok (VArr false (mkT (0 :: item_shape) junk), 0 :: item_shape, true)
      else match arr with
           | [c] => Ok (VList (repeat c (Z.to_nat n)), n :: item_shape, true)
           | _ => Err ValueError
           end
    end
  end.
(** ragged.py:241-247 *)
Definition vwrap {A} (n : Z) (d : val A * list Z) : val A * list Z :=
  if n =? -1 then (VList [fst d], 1 :: snd d) else (VList (repeat (fst d) (Z.to_nat n)), n :: snd d).
(** ragged.py:196-254 [expand_ragged_ndarray] *)
Definition vexpand_ragged {A} (junk : list Z -> A) (data : val A) (old_shape new_shape : list Z) : res (val A * list Z) :=
  if all2 Z.eqb old_shape new_shape then Ok (data, old_shape)
  else if zero_length old_shape new_shape then Err ValueError
  else
    let old_ndim := length old_shape in
    let new_ndim := length new_shape in
    if Nat.ltb old_ndim new_ndim then
      r <- vexpand junk (skipn (new_ndim - old_ndim) new_shape) data ;;
      Ok (fold_right vwrap (fst r) (firstn (new_ndim - old_ndim) new_shape))
    else
      r <- vexpand junk (repeat (-1) (old_ndim - new_ndim) ++ new_shape) data ;;
      Ok (fst r).

(** x[i] of an array, i in range *)
Definition slice0 {A} (x : tensor A) (i : Z) : tensor A := mkT (tl (shp x)) (fun p => at_ x (i :: p)).
(** v[i]; a zero-dimensional array (and a numpy scalar) raises IndexError, other scalars TypeError *)
Definition val_idx {A} (v : val A) (i : Z) : res (val A) :=
  match v with
  | VLeaf _ => Err TypeError
  | VList l => pyidx l i
  | VArr torch x =>
    match shp x with
    | [] => Err IndexError
    | n :: _ => let k := if i <? 0 then i + n else i in
                if (0 <=? k) && (k <? n) then Ok (VArr torch (slice0 x k)) else Err IndexError
    end
  end.
(** for sub in v *)
Definition val_iter {A} (v : val A) : res (list (val A)) :=
  match v with
  | VLeaf _ => Err TypeError
  | VList l => Ok l
  | VArr torch x => match shp x with [] => Err TypeError | n :: _ => Ok (map (fun i => VArr torch (slice0 x i)) (zrange n)) end
  end.
(** ragged.py:257-260 [_recursive_apply] *)
Fixpoint vapply {A B} (func : val A -> res (val B)) (depth : nat) (v : val A) : res (val B) :=
  match depth with
  | O => func v
  | S d => l <- val_iter v ;; l' <- mapM (vapply func d) l ;; Ok (VList l')
  end.

(** * ndspec.py *)
Record vspec (A : Type) := mkV { vs_data : val A; vs_shape : list Z; vs_pos : nat }.
Arguments mkV {A}. Arguments vs_data {A}. Arguments vs_shape {A}. Arguments vs_pos {A}.
(** ndspec.py:136-183 [__init__] *)
Definition vspec_item {A} (junk : list Z -> A) (data : val A) (item_shape : list Z) : res (vspec A) :=
  r <- vexpand_ragged junk data (vshape data) item_shape ;;
  let '(data, shape) := r in
  Ok (mkV data shape (length shape - length item_shape)).
Definition vspec_index {A} (data : val A) (index_shape : list Z) : res (vspec A) :=
  let shape := vshape data in
  ok <- check_index shape index_shape ;;
  if ok then Ok (mkV data shape (length index_shape)) else Err ValueError.
(** ndspec.py:185-239 *)
Definition vs_index_shape {A} (s : vspec A) : list Z := firstn (vs_pos s) (vs_shape s).
Definition vs_item_shape {A} (s : vspec A) : list Z := skipn (vs_pos s) (vs_shape s).
Definition vs_is_item {A} (s : vspec A) : bool := Nat.eqb (vs_pos s) 0.
Definition vs_len {A} (s : vspec A) : res Z := if vs_is_item s then Ok 0 else pyidx (vs_shape s) 0.
Definition vs_get {A} (s : vspec A) (k : key) : res (val A) :=
  if vs_is_item s then Ok (vs_data s)
  else match k with
       | KInt i => val_idx (vs_data s) i
       | KTuple l =>
         if Nat.ltb (length (vs_index_shape s)) (length l) then Err IndexError
         else fold_left (fun r i => t <- r ;; val_idx t i) l (Ok (vs_data s))
       end.
Definition vs_iter {A} (s : vspec A) : res (list (val A)) :=
  if vs_is_item s then Ok [vs_data s] else n <- vs_len s ;; mapM (fun i => vs_get s (KInt i)) (zrange n).
(** ndspec.py:244-280 [map], [starmap] ([func( *item )] iterates over the item) *)
Definition vs_map {A B} (func : val A -> res (val B)) (s : vspec A) : res (vspec B) :=
  d <- vapply func (length (vs_shape s) - length (vs_item_shape s)) (vs_data s) ;;
  vspec_index d (vs_index_shape s).
Definition vs_starmap {A B} (func : list (val A) -> res (val B)) (s : vspec A) : res (vspec B) :=
  vs_map (fun item => l <- val_iter item ;; func l) s.
(** ndspec.py:382-416 [apply]; ndspec.py:282-299 [zip] *)
Fixpoint vfill_index {B} (index_shape : list Z) (done : list Z) (f : list Z -> res (val B)) : res (val B) :=
  match index_shape with
  | [] => f done
  | n :: r => l <- mapM (fun i => vfill_index r (done ++ [i]) f) (zrange n) ;; Ok (VList l)
  end.
Definition vs_apply {A B} (func : list (val A) -> res (val B)) (args : list (vspec A)) : res (vspec B) :=
  index_shape <- agg_shape (map vs_index_shape args) ;;
  d <- match index_shape with
       | [] => func (map vs_data args)
       | _ => if existsb (fun n => n <? 0) index_shape then Err ValueError
              else vfill_index index_shape [] (fun i => items <- mapM (fun a => vs_get a (KTuple i)) args ;; func items)
       end ;;
  vspec_index d index_shape.
Definition vs_zip {A} (args : list (vspec A)) : res (vspec A) := vs_apply (fun l => Ok (VList l)) args.
