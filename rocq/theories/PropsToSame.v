(** C106: Padder.to_same.

    Vocabulary (ToSame.v; PadNdSpec.v):
    - [item s r]: the item that specification s gives the axis with r axes to its right;
    - [applied f a b c w]: the items of w are f of the items of a, b, c;
    - [one_length l]: all lists among the specifications have one length ([lengths3], [lengths_of]). *)
From Coq Require Import QArith.
From Verif Require Import ExampleUtil PadTwiceEx ToSame.
Open Scope Z_scope.

(** ** C106: to_same replaces the widths axis by axis and keeps the rest. *)
Theorem C106_sets : forall (F : ofield) (p p' : padder F) k s i, to_same p k s i = (p', Ok tt) ->
  (p_mode p' = p_mode p /\ p_const p' = p_const p /\ p_end p' = p_end p /\ p_stat p' = p_stat p) /\
  applied same_padding_width k s i (p_width p') /\
  (forall n, In (Some n) (nds_ishape (p_width p') :: lengths_of F p) -> p_ndim p' = n) /\
  ((forall n, ~ In (Some n) (nds_ishape (p_width p') :: lengths_of F p)) -> p_ndim p' = 0).
Proof. exact to_same_sets. Qed.
Print Assumptions C106_sets.
Theorem C106_iff : forall (F : ofield) (p : padder F) k s i, snd (to_same p k s i) = Ok tt <->
  one_length (lengths3 k s i ++ lengths_of F p) /\
  forall r x y z, item k r = Some x -> item s r = Some y -> item i r = Some z -> exists w, same_padding_width x y z = Ok w.
Proof. exact to_same_iff. Qed.
Print Assumptions C106_iff.
Theorem C106_history : forall (F : ofield) (p : padder F) k s i k' s' i',
  snd (to_same (fst (to_same p k s i)) k' s' i') = snd (to_same p k' s' i') /\
  (snd (to_same p k' s' i') = Ok tt -> fst (to_same (fst (to_same p k s i)) k' s' i') = fst (to_same p k' s' i')).
Proof. exact to_same_history. Qed.
Print Assumptions C106_history.
(** A failing call leaves the padder unchanged, or has replaced the widths alone. *)
Theorem C106_fails : forall (F : ofield) (p p' : padder F) k s i e, to_same p k s i = (p', Err e) ->
  p' = p \/ (e = ValueError /\
    (p_mode p' = p_mode p /\ p_const p' = p_const p /\ p_end p' = p_end p /\ p_stat p' = p_stat p) /\ p_ndim p' = p_ndim p /\
    applied same_padding_width k s i (p_width p')).
Proof. exact to_same_fails. Qed.
Print Assumptions C106_fails.
(** So a failing call is not always without effect: a later forward pads by the new widths. *)
Theorem C106_failure_without_effect_refuted : exists (p p' : padder QcF) k s i e fuel x y y',
  padder_init (p_width p) (p_mode p) (p_const p) (p_end p) (p_stat p) = Ok p /\
  to_same p k s i = (p', Err e) /\
  padder_forward fuel garbage p x AxNone = Ok y /\ padder_forward fuel garbage p' x AxNone = Ok y' /\ shp y <> shp y'.
Proof. exact failing_to_same. Qed.
Print Assumptions C106_failure_without_effect_refuted.
Example C106_example :
  let p := pad2 (1, 0) (2, 1) MReplicate MReflect in
  to_same p (NList [3; 4]) (NList [Some 1; Some 3]) (NItem (Some 8)) = (pad2 (1, 1) (1, 1) MReplicate MReflect, Ok tt) /\
  to_same p (NItem 4) (NItem (Some 1)) (NItem None) =
    (mkPadder (NItem (2, 1)) (p_mode p) (p_const p) (p_end p) (p_stat p) 2, Ok tt) /\
  to_same p (NItem 4) (NItem (Some 2)) (NItem None) = (p, Err ValueError) /\
  to_same p (NList [3; 5; 7]) (NItem (Some 1)) (NItem None) =
    (mkPadder (NList [(1, 1); (2, 2); (3, 3)]) (p_mode p) (p_const p) (p_end p) (p_stat p) 2, Err ValueError).
Proof. repeat split; reflexivity. Qed.
