(** Python's int() on the rationals, and concrete edge filters, for the examples. *)
From Coq Require Import QArith Qcanon.
From Verif Require Export ExampleUtil EdgePropLemmas.
Open Scope Z_scope.

Definition qtrunc (v : QcF) : Z := Z.quot (Qnum (this v)) (Zpos (Qden (this v))).

Section A.
Variable F : ofield.
Add Field Fa1 : (f_field F).
Lemma add1_inj (a b : F) : fadd a f1 = fadd b f1 -> a = b.
Proof. intros H. replace a with (fsub (fadd a f1) f1) by ring. rewrite H. ring. Qed.
End A.
Lemma fofZ_q z : @fofZ QcF z = qz z.
Proof.
  revert z. apply (Z.bi_induction (fun z => @fofZ QcF z = qz z)).
  - intros ? ? ->. tauto.
  - apply Qc_is_canon. reflexivity.
  - intros z. change (Z.succ z) with (z + 1). rewrite fofZ_succ.
    assert (E : qz (z + 1) = @fadd QcF (qz z) f1).
    { change (Q2Qc (inject_Z (z + 1)) = (Q2Qc (inject_Z z) + 1)%Qc). apply Qc_is_canon. unfold Qcplus, Q2Qc. cbn [this].
      rewrite !Qred_correct. rewrite inject_Z_plus. reflexivity. }
    rewrite E. split; intros H; [now rewrite H|].
    exact (add1_inj QcF _ _ H).
Qed.

Lemma qz_le (v : QcF) z : fle (qz z) v <-> z * Zpos (Qden (this v)) <= Qnum (this v).
Proof.
  unfold fle. change (Qle_bool (Qred (inject_Z z)) (this v) = true <-> z * Zpos (Qden (this v)) <= Qnum (this v)).
  rewrite Qle_bool_iff, Qred_correct. unfold Qle. cbn. rewrite Z.mul_1_r. tauto.
Qed.
Lemma le_qz (v : QcF) z : fle v (qz z) <-> Qnum (this v) <= z * Zpos (Qden (this v)).
Proof.
  unfold fle. change (Qle_bool (this v) (Qred (inject_Z z)) = true <-> Qnum (this v) <= z * Zpos (Qden (this v))).
  rewrite Qle_bool_iff, Qred_correct. unfold Qle. cbn. rewrite Z.mul_1_r. tauto.
Qed.
Lemma flt_not (F : ofield) (a b : F) : ~ fle b a -> flt a b.
Proof. intros H. destruct (fle_dec_flt F b a); tauto. Qed.
Lemma qtrunc_ok : truncates qtrunc.
Proof.
  intros v. unfold integer_part, qtrunc. rewrite !fofZ_q. set (n := Qnum (this v)). set (d := Zpos (Qden (this v))).
  assert (Hd : 0 < d) by reflexivity. pose proof (Z.quot_rem n d ltac:(lia)) as E.
  destruct (Z.le_gt_cases 0 n) as [Hn|Hn].
  - left. pose proof (Z.rem_bound_pos n d Hn Hd). split; [apply Z.quot_pos; lia|]. split.
    + apply qz_le. fold n d. lia.
    + apply flt_not. rewrite qz_le. fold n d. lia.
  - right. assert (- d < Z.rem n d <= 0).
    { rewrite <- (Z.opp_involutive n), Z.rem_opp_l by lia. pose proof (Z.rem_bound_pos (- n) d). lia. } assert (Z.quot n d <= 0).
    { rewrite <- (Z.opp_involutive n), Z.quot_opp_l by lia. pose proof (Z.quot_pos (- n) d). lia. }
    split; auto. split.
    + apply flt_not. rewrite le_qz. fold n d. lia.
    + apply le_qz. fold n d. lia.
Qed.

(** The filter an __init__ has built, for evaluating examples. *)
Definition get {A} (d : A) (r : res A) : A := match r with Ok a => a | Err _ => d end.
Lemma get_ok {A} (d : A) r a : r = Ok a -> a = get d r.
Proof. now intros ->. Qed.
Definition filter0 : edge_filter QcF := mkEdge [] (mkPool (NItem []) (NItem 0) (NItem 0) None 0) (mkPool (NItem []) (NItem 0) (NItem 0) None 0) false.
