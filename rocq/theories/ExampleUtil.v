(** Concrete tensors over the rationals, for the examples. *)
From Verif Require Export PadPropLemmas.
From Coq Require Import QArith Qcanon.
Open Scope Z_scope.

Definition qz (z : Z) : QcF := Q2Qc (inject_Z z).
Definition qq (n : Z) (d : positive) : QcF := Q2Qc (Qmake n d).

(** Row-major position of an index. *)
Definition flat_pos (sh i : list Z) : Z := fold_left (fun acc p => acc * fst p + snd p) (combine sh i) 0.
Definition ofl (sh : list Z) (l : list QcF) : tensor QcF :=
  mkT sh (fun i => nth (Z.to_nat (flat_pos sh i)) l f0).
Definition ofz (sh : list Z) (l : list Z) : tensor QcF := ofl sh (map qz l).
Fixpoint indices (sh : list Z) : list (list Z) :=
  match sh with
  | [] => [[]]
  | n :: r => flat_map (fun k => map (cons k) (indices r)) (zrange n)
  end.
(** Shape and contents, row-major, as fractions. *)
Definition show (t : res (tensor QcF)) : option (list Z * list Q) :=
  match t with
  | Ok t => Some (shp t, map (fun i => this (at_ t i)) (indices (shp t)))
  | Err _ => None
  end.
Definition zq (l : list Z) : list Q := map inject_Z l.
(** Contents of fresh memory. *)
Definition garbage : list Z -> QcF := fun _ => qz 99.

Lemma all_le n (A B : nat -> Z) : forallb (fun d => A d <=? B d) (seq 0 n) = true ->
  forall d, (d < n)%nat -> A d <= B d.
Proof. intros H d Hd. rewrite forallb_forall in H. apply Z.leb_le, H, in_seq. lia. Qed.
Lemma all_lt n l : forallb (fun a => Nat.ltb a n) l = true -> forall a, In a l -> (a < n)%nat.
Proof. intros H a Ha. rewrite forallb_forall in H. now apply Nat.ltb_lt, H. Qed.
Ltac fin_nat := match goal with |- forall d, (d < ?n)%nat -> (@?A d) <= (@?B d) =>
  apply (all_le n A B); vm_compute; reflexivity end.
Ltac ex_call := split; [unfold ndim; cbn; lia | fin_nat | vm_compute; reflexivity
  | apply all_lt; vm_compute; reflexivity
  | repeat constructor; cbn; intuition lia
  | fin_nat ].
Ltac ex_one := split; [fin_nat | vm_compute; reflexivity | unfold ndim; cbn; lia | reflexivity | cbn; lia | cbn; lia | cbn; try (left; lia); auto | fin_nat ].

Definition pad2 (w1 w2 : Z * Z) (m1 m2 : mode QcF) : padder QcF :=
  mkPadder (NList [w1; w2]) (NList [m1; m2]) (NItem (qz 7, qz 8)) (NItem (qz 0, qz 10)) (NItem (Some 2, None)) 2.
Definition pad1d (w : Z * Z) (m : mode QcF) : padder QcF :=
  mkPadder (NItem w) (NItem m) (NItem (qz 7, qz 8)) (NItem (qz 0, qz 10)) (NItem (Some 2, None)) 0.
Definition x23 := ofz [2; 3] [1; 2; 4; 10; 20; 40].
(** The parameters pad2 gives an axis. *)
Definition par2 (w : Z * Z) (m : mode QcF) : axis_params QcF :=
  mkAP (fst w) (snd w) m (qz 7, qz 8) (qz 0, qz 10) (Some 2, None).
Lemma pad2_axes w1 w2 m1 m2 a b (R : nat -> axis_params QcF -> Prop) : Nat.eqb a b = false ->
  R a (par2 w1 m1) -> R b (par2 w2 m2) ->
  forall c, In c (last_axes (pad2 w1 w2 m1 m2) [a; b]) ->
  exists q, axis_par (pad2 w1 w2 m1 m2) (last_axes (pad2 w1 w2 m1 m2) [a; b]) c = Some q /\ R c q.
Proof.
  destruct w1, w2. intros Hab Ha Hb c Hc. change (last_axes _ [a; b]) with [a; b] in *. unfold axis_par.
  destruct Hc as [<-|[<-|[]]].
  - exists (par2 (z, z0) m1). split; auto. cbn. rewrite Nat.eqb_refl. reflexivity.
  - exists (par2 (z1, z2) m2). split; auto. cbn. rewrite Nat.eqb_sym, Hab, Nat.eqb_refl. reflexivity.
Qed.
Ltac ex_axes := match goal with |- all_axes (pad2 ?w1 ?w2 ?m1 ?m2) ?x [?a; ?b] ?P =>
  refine (pad2_axes w1 w2 m1 m2 a b (fun c q => 0 <= ap_before q /\ 0 <= ap_after q /\ P q (nth c (shp x) 0)) eq_refl _ _) end;
  cbn; repeat split; try lia; auto.
Ltac ex_fine := match goal with |- all_fine _ (pad2 ?w1 ?w2 ?m1 ?m2) ?x [?a; ?b] =>
  refine (pad2_axes w1 w2 m1 m2 a b (fun c q => axis_fine QcF q (nth c (shp x) 0)) eq_refl _ _) end;
  (split; [cbn; lia|]; split; [cbn; lia|]; first [right; left; reflexivity |
     right; right; split; [left; cbn; lia|]; eexists; reflexivity]).
