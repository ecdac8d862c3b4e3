(** Specification of N-dimensional padding: one axis after the other, each
    axis by the line extension of its mode (PadSpec.v).  From the model only
    the data types of the arguments ([nds], [mode], [padder]) are used. *)
From Verif Require Export PadSpec PadModel.

Section PadNdSpec.
Context {F : ofield}.

(** Extend every line of x along axis a by e, with pb elements before and pa after. *)
Definition pad1 (e : Z -> (Z -> F) -> Z -> F) (a : nat) (pb pa : Z) (x : tensor F) : tensor F :=
  let n := nth a (shp x) 0 in
  mkT (upd a (pb + n + pa) (shp x))
      (fun j => e n (fun t => at_ x (upd a t j)) (nth a j 0 - pb)).

(** Extension of a mode; None for the modes that are not extensions of the
    line (empty, zeros - see C16 -, user functions, unknown names). *)
Definition mode_ext (m : mode F) (pb pa : Z) (cv ev : F * F) (sl : option Z * option Z)
  : option (Z -> (Z -> F) -> Z -> F) :=
  match m with
  | MReplicate => Some ext_replicate
  | MSmooth => Some ext_smooth
  | MCircular => Some ext_circular
  | MPeriodize => Some ext_periodize
  | MSymmetric => Some ext_symmetric
  | MReflect => Some ext_reflect
  | MAntisymmetric => Some ext_antisymmetric
  | MOddReflect => Some ext_odd_reflect
  | MOddSymmetric => Some ext_odd_symmetric
  | MStat s => Some (ext_stat (stat_fun s) (fst sl) (snd sl))
  | MConstant => Some (ext_constant (fst cv) (snd cv))
  | MLinearRamp => Some (ext_linear_ramp pb pa (fst ev) (snd ev))
  | MZeros | MEmpty | MFun _ | MUnknown => None
  end.

(** Item for the axis with r axes to its right (right-justified). *)
Definition item {A} (s : nds A) (r : nat) : option A :=
  match s with NItem a => Some a | NList l => nth_error (rev l) r end.

Record axis_params := mkAP {
  ap_before : Z; ap_after : Z; ap_mode : mode F;
  ap_const : F * F; ap_end : F * F; ap_stat : option Z * option Z }.
Definition params (p : padder F) (r : nat) : option axis_params :=
  match item (p_width p) r, item (p_mode p) r, item (p_const p) r, item (p_end p) r, item (p_stat p) r with
  | Some (b, a), Some m, Some cv, Some ev, Some sl => Some (mkAP b a m cv ev sl)
  | _, _, _, _, _ => None
  end.

(** periodize makes room for one more sample when the length is odd *)
Definition parity_slot (m : mode F) (n : Z) : Z :=
  match m with MPeriodize => n mod 2 | _ => 0 end.

(** Modes that work on an empty axis. *)
Definition empty_ok (m : mode F) : bool :=
  match m with MConstant | MEmpty => true | _ => false end.

(** Pad axis a of x with parameters q.  Width (0,0) leaves the tensor alone;
    mode "empty" is skipped here (its padding is unspecified, see [off]). *)
Definition spec_axis (q : axis_params) (a : nat) (x : tensor F) : option (tensor F) :=
  if negb ((0 <=? ap_before q) && (0 <=? ap_after q)) then None
  else if (ap_before q =? 0) && (ap_after q =? 0) then Some x
  else if (nth a (shp x) 0 <=? 0) && negb (empty_ok (ap_mode q)) then None
  else match ap_mode q with
  | MEmpty => Some x
  | m =>
    match mode_ext m (ap_before q) (ap_after q) (ap_const q) (ap_end q) (ap_stat q) with
    | Some e => Some (pad1 e a (ap_before q) (ap_after q + parity_slot m (nth a (shp x) 0)) x)
    | None => None
    end
  end.

(** The axes from left to right; the last one has the last items. *)
Fixpoint spec_axes (p : padder F) (x : tensor F) (axes : list nat) : option (tensor F) :=
  match axes with
  | [] => Some x
  | a :: rest =>
    match params p (length rest) with
    | Some q => match spec_axis q a x with Some y => spec_axes p y rest | None => None end
    | None => None
    end
  end.

(** A padder with ndim items touches at most the last ndim of the axes. *)
Definition last_axes (p : padder F) (axes : list nat) : list nat :=
  if 0 <? p_ndim p then skipn (length axes - Z.to_nat (p_ndim p)) axes else axes.
Definition pad_spec (p : padder F) (x : tensor F) (axes : list nat) : option (tensor F) :=
  spec_axes p x (last_axes p axes).

(** Where the result of [pad_spec] sits in the real output: mode "empty" shifts it. *)
Fixpoint off (p : padder F) (axes : list nat) (v : list Z) : list Z :=
  match axes with
  | [] => v
  | a :: rest =>
    off p rest (match params p (length rest) with
                | Some (mkAP b _ MEmpty _ _ _) => upd a b v
                | _ => v
                end)
  end.

(** Total widths added to each axis. *)
Fixpoint widths_before (p : padder F) (axes : list nat) (v : list Z) : list Z :=
  match axes with
  | [] => v
  | a :: rest =>
    widths_before p rest (match params p (length rest) with
                | Some q => upd a (nth a v 0 + ap_before q) v
                | _ => v
                end)
  end.
Fixpoint widths_after (p : padder F) (shape : list Z) (axes : list nat) (v : list Z) : list Z :=
  match axes with
  | [] => v
  | a :: rest =>
    widths_after p shape rest (match params p (length rest) with
                | Some q =>
                  if (ap_before q =? 0) && (ap_after q =? 0) then v
                  else upd a (nth a v 0 + (ap_after q + parity_slot (ap_mode q) (nth a shape 0))) v
                | _ => v
                end)
  end.
Definition out_shape (p : padder F) (shape : list Z) (axes : list nat) : list Z :=
  let z := repeat 0 (length shape) in
  map2 Z.add (map2 Z.add (widths_before p (last_axes p axes) z) shape)
             (widths_after p shape (last_axes p axes) z).
End PadNdSpec.
Arguments axis_params F : clear implicits.
