(** The deprecated _same_padding_pair. *)
From Verif Require Export PadPropLemmas.
Open Scope Z_scope.

Theorem same_pair_ok k : 1 <= k ->
  let '(b, a) := same_padding_pair k in
  b + a = k - 1 /\ 0 <= b - a <= 1 /\ (forall n, same_padding_width k (Some 1) n = Ok (b, a)) /\
  (forall n, 1 <= n -> window_count (n + b + a) k 1 n).
Proof.
  intros H. unfold same_padding_pair. destruct (k <=? 1) eqn:E.
  - apply Z.leb_le in E. replace k with 1 by lia. split; [lia|]. split; [lia|]. split; [reflexivity|]. intros n Hn. unfold window_count. lia.
  - apply Z.leb_gt in E. pose proof (Z.div_mod k 2 ltac:(lia)) as D. pose proof (Z.mod_pos_bound k 2 ltac:(lia)) as B.
    assert (W : forall n, same_padding_width k (Some 1) n = Ok (k - 1 - (k - 1) / 2, (k - 1) / 2)).
    { intros n. unfold same_padding_width, same_pad_split. rewrite Z.max_l by lia. reflexivity. }
    destruct (k mod 2 =? 1) eqn:O; [apply Z.eqb_eq in O|apply Z.eqb_neq in O].
    + assert ((k - 1) / 2 = k / 2) by (symmetry; apply Z.div_unique with 0; lia).
      split; [lia|]. split; [lia|]. split; [intros n; rewrite W; do 2 f_equal; lia|]. intros n Hn. unfold window_count. lia.
    + assert ((k - 1) / 2 = k / 2 - 1) by (symmetry; apply Z.div_unique with 1; lia).
      split; [lia|]. split; [lia|]. split; [intros n; rewrite W; do 2 f_equal; lia|]. intros n Hn. unfold window_count. lia.
Qed.
(** Kernel sizes below 1: no padding. *)
Theorem same_pair_small k : k <= 1 -> same_padding_pair k = (0, 0).
Proof. intros H. unfold same_padding_pair. apply Z.leb_le in H. now rewrite H. Qed.
(** The documented second use: splitting a padding width. *)
Theorem same_pair_split total : 0 <= total ->
  let '(b, a) := same_padding_pair (total + 1) in b + a = total /\ 0 <= a /\ 0 <= b - a <= 1.
Proof.
  intros H. pose proof (same_pair_ok (total + 1) ltac:(lia)) as P. destruct (same_padding_pair (total + 1)) as [b a]. destruct P as [P1 [P2 _]]. lia.
Qed.
