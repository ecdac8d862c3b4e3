(** Gaussian kernels read backwards. *)
From Coq Require Import Reals Lra.
From Verif Require Export PoolFlip GaussPool.
Open Scope Z_scope.

Lemma gauss_reversed ks sigma n k : 1 <= ks -> sigma <> 0%R -> 0 <= n -> Z.odd ks = true -> gaussian_kernel_1d ks sigma n = Ok k ->
  rev k = map (fun v => ((-1) ^ Z.to_nat n * v)%R) k.
Proof.
  intros Hk Hs Hn Ho E. destruct (gauss_parity ks sigma n Hk Hs Hn Ho) as [k' [E' [H _]]]. rewrite E in E'. injection E' as <-.
  assert (L : Z.of_nat (length k) = ks).
  { destruct (gauss_deriv ks sigma n Hk Hs) as [k2 [E2 [L _]]]. { destruct (Z.eq_dec n 0); [right|left]; auto; lia. } rewrite E in E2. injection E2 as <-. auto. }
  apply nth_ext with (d := 0%R) (d' := ((-1) ^ Z.to_nat n * 0)%R); [now rewrite rev_length, map_length|].
  intros i Hi. rewrite rev_length in Hi. rewrite rev_nth by auto. rewrite (map_nth (fun v => ((-1) ^ Z.to_nat n * v)%R)).
  pose proof (H (Z.of_nat (length k - S i)) ltac:(lia)) as H2. rewrite Nat2Z.id in H2. rewrite H2. do 3 f_equal. lia.
Qed.
Lemma gauss_palindrome ks sigma k : 1 <= ks -> sigma <> 0%R -> Z.odd ks = true -> gaussian_kernel_1d ks sigma 0 = Ok k -> rev k = k.
Proof.
  intros Hk Hs Ho E. rewrite (gauss_reversed ks sigma 0 k) by (auto; lia). rewrite <- map_id. apply map_ext. intros v. cbn. lra.
Qed.
