(** Basic indexing with integers, slices and an ellipsis; concatenation and stacking;
    two-dimensional reflection padding and strided convolution (torch.nn layers). *)
From Verif Require Export TensorOps.
Open Scope Z_scope.

(** One entry of an index expression. *)
Inductive ix := IInt (k : Z) | ISl (s : slice).
Inductive rix := RInt (k : Z) | RSl (r : rsl).

Definition resolve_ix (n : Z) (i : ix) : res rix :=
  match i with
  | IInt k => let k' := if k <? 0 then k + n else k in
              if (0 <=? k') && (k' <? n) then Ok (RInt k') else Err IndexError
  | ISl s => Ok (RSl (resolve n s))
  end.
(** One entry per axis. *)
Fixpoint resolve_all (s : list Z) (l : list ix) : res (list rix) :=
  match s, l with
  | [], [] => Ok []
  | n :: s', i :: l' => r <- resolve_ix n i ;; R <- resolve_all s' l' ;; Ok (r :: R)
  | _, _ => Err IndexError
  end.
(** Integers drop their axis. *)
Fixpoint rlens (R : list rix) : list Z :=
  match R with
  | [] => []
  | RInt _ :: R' => rlens R'
  | RSl r :: R' => r_len r :: rlens R'
  end.
(** Position in the source of position i of the result. *)
Fixpoint rfill (R : list rix) (i : list Z) : list Z :=
  match R with
  | [] => []
  | RInt k :: R' => k :: rfill R' i
  | RSl r :: R' => match i with [] => [] | k :: i' => rpos r k :: rfill R' i' end
  end.
(** Is position j selected? *)
Fixpoint rtest (R : list rix) (j : list Z) : bool :=
  match R, j with
  | [], [] => true
  | RInt k :: R', x :: j' => (x =? k) && rtest R' j'
  | RSl r :: R', x :: j' => rinb r x && rtest R' j'
  | _, _ => false
  end.
(** Position in the result of the selected position j. *)
Fixpoint rback (R : list rix) (j : list Z) : list Z :=
  match R, j with
  | RInt _ :: R', _ :: j' => rback R' j'
  | RSl r :: R', x :: j' => rrel r x :: rback R' j'
  | _, _ => []
  end.

(** [x[l]] with one entry per axis. *)
Definition tgetx {A} (x : tensor A) (l : list ix) : res (tensor A) :=
  R <- resolve_all (shp x) l ;;
  Ok (mkT (rlens R) (fun i => at_ x (rfill R i))).
(** [x[l] = v] with broadcasting of v. *)
Definition tsetx {A} (x : tensor A) (l : list ix) (v : tensor A) : res (tensor A) :=
  R <- resolve_all (shp x) l ;;
  if expandable (shp v) (rlens R) then
    Ok (mkT (shp x) (fun j => if rtest R j then at_ v (bidx (shp v) (rback R j)) else at_ x j))
  else Err RuntimeError.
(** [..., l]: full slices in front; too many entries are an IndexError ([resolve_all]). *)
Definition ell (nd : nat) (l : list ix) : list ix := repeat (ISl sfull) (nd - length l) ++ l.

(** [t.unsqueeze(d)], d nonnegative. *)
Definition insert_at {A} (d : nat) (v : A) (l : list A) : list A := firstn d l ++ v :: skipn d l.
Definition remove_at {A} (d : nat) (l : list A) : list A := firstn d l ++ skipn (S d) l.
Definition tunsqueeze {A} (d : nat) (t : tensor A) : tensor A :=
  mkT (insert_at d 1 (shp t)) (fun i => at_ t (remove_at d i)).

(** [torch.cat(l, dim=d)]; shapes must agree off d.  (torch's special treatment of 1-d empty
    tensors is not modelled.) *)
Fixpoint cat_at {A} (d : nat) (t : tensor A) (l : list (tensor A)) (i : list Z) : A :=
  match l with
  | [] => at_ t i
  | u :: l' => if nth d i 0 <? dimlen t d then at_ t i
               else cat_at d u l' (upd d (nth d i 0 - dimlen t d) i)
  end.
Definition same_off (d : nat) (s s' : list Z) : bool :=
  Nat.eqb (length s) (length s') && all2 Z.eqb (upd d 0 s) (upd d 0 s').
Definition tcat {A} (d : nat) (l : list (tensor A)) : res (tensor A) :=
  match l with
  | [] => Err RuntimeError
  | t :: l' =>
    if Nat.ltb d (ndim t) && forallb (fun u => same_off d (shp t) (shp u)) l' then
      Ok (mkT (upd d (fold_right Z.add 0 (map (fun u => dimlen u d) l)) (shp t)) (cat_at d t l'))
    else Err RuntimeError
  end.
(** [torch.stack(l, dim=d)]: all shapes equal. *)
Definition tstack {A} (d : nat) (l : list (tensor A)) : res (tensor A) := tcat d (map (tunsqueeze d) l).

(** [shape[-k:]] and [shape[:-k]] *)
Definition lastn {A} (k : nat) (l : list A) : list A := skipn (length l - k) l.
Definition butlast {A} (k : nat) (l : list A) : list A := firstn (length l - k) l.

(** torch's reflection of a coordinate by at most one mirror. *)
Definition refl1 (n t : Z) : Z := if t <? 0 then - t else if n <=? t then 2 * (n - 1) - t else t.

(** nn.ReflectionPad2d((left, right, top, bottom)): 3-d or 4-d input, every padding smaller than the
    length; negative paddings crop.  Other inputs raise RuntimeError. *)
Definition reflection_pad2d {A} (pl pr pt pb : Z) (x : tensor A) : res (tensor A) :=
  let nd := ndim x in
  let h := nth (nd - 2) (shp x) 0 in
  let w := nth (nd - 1) (shp x) 0 in
  if (Nat.eqb nd 3 || Nat.eqb nd 4) && (pl <? w) && (pr <? w) && (pt <? h) && (pb <? h)
     && (1 <=? h + pt + pb) && (1 <=? w + pl + pr) then
    Ok (mkT (upd (nd - 2) (h + pt + pb) (upd (nd - 1) (w + pl + pr) (shp x)))
            (fun i => at_ x (upd (nd - 2) (refl1 h (nth (nd - 2) i 0 - pt))
                            (upd (nd - 1) (refl1 w (nth (nd - 1) i 0 - pl)) i))))
  else Err RuntimeError.

(** nn.Conv2d(cin, cout, k, stride=s, padding=0, bias): weight o c a b, 3-d or 4-d input. *)
Definition conv2d {F : ofield} (cin cout k s : Z) (w : Z -> Z -> Z -> Z -> F) (bias : option (Z -> F)) (x : tensor F)
  : res (tensor F) :=
  let nd := ndim x in
  let h := nth (nd - 2) (shp x) 0 in
  let wd := nth (nd - 1) (shp x) 0 in
  if (Nat.eqb nd 3 || Nat.eqb nd 4) && (nth (nd - 3) (shp x) 0 =? cin) && (1 <=? k) && (k <=? h) && (k <=? wd) && (1 <=? s) then
    Ok (mkT (upd (nd - 3) cout (upd (nd - 2) ((h - k) / s + 1) (upd (nd - 1) ((wd - k) / s + 1) (shp x))))
            (fun i =>
               let o := nth (nd - 3) i 0 in
               let v := fsum cin (fun c => fsum k (fun a => fsum k (fun b =>
                  fmul (w o c a b)
                    (at_ x (upd (nd - 3) c (upd (nd - 2) (nth (nd - 2) i 0 * s + a) (upd (nd - 1) (nth (nd - 1) i 0 * s + b) i))))))) in
               match bias with None => v | Some bs => fadd v (bs o) end))
  else Err RuntimeError.
