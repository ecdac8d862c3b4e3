(** Each function of pad_1d.py extends every line of the slab as specified. *)
From Verif Require Export LineLemmas PadSpec FieldLemmas.
From Coq Require Import Permutation Sorted.

Section P.
Variable F : ofield.
Notation T := (tensor F).
Add Field Ffield1 : (f_field F).

(** The line through j along [dim], starting at [head]. *)
Definition line (x : T) (dim : nat) (head : Z) (j : list Z) : Z -> F :=
  fun t => at_ x (upd dim (head + t) j).

(** An extension only looks at the samples f(0..n-1). *)
Definition extensional (e : Z -> (Z -> F) -> Z -> F) : Prop :=
  forall n f g t, 1 <= n -> (forall u, 0 <= u < n -> f u = g u) -> e n f t = e n g t.
Definition core (e : Z -> (Z -> F) -> Z -> F) : Prop :=
  forall n f t, 0 <= t < n -> e n f t = f t.

Definition Eof (e : Z -> (Z -> F) -> Z -> F) (x : T) dim head n : list Z -> Z -> F :=
  fun j k => e n (line x dim head j) (k - head).

Lemma Eof_dinv e x dim head n : extensional e -> 1 <= n -> dinv dim (Eof e x dim head n).
Proof.
  intros He Hn j k c. unfold Eof. apply He; auto. intros. unfold line. now rewrite upd_upd.
Qed.

(** Contract of a 1-d padding function. *)
Definition pads (pf : T -> list slice -> nat -> res T) (x : T) idx dim head tail
    (e : Z -> (Z -> F) -> Z -> F) : Prop :=
  exists y, pf x idx dim = Ok y /\
    agree (shp x) idx dim x (Eof e x dim head (tail - head)) 0 (nth dim (shp x) 0) y.

Record pre (x : T) idx dim head tail : Prop := {
  pre_W : wfi (shp x) idx dim;
  pre_idx : nth dim idx sfull = srng head tail;
  pre_head : 0 <= head;
  pre_ht : head < tail;
  pre_tail : tail <= nth dim (shp x) 0
}.

Lemma head_tail_ok sh idx dim head tail :
  wfi sh idx dim -> nth dim idx sfull = srng head tail -> head_tail idx dim = Ok (head, tail).
Proof.
  intros W H. unfold head_tail. rewrite (nth_error_nth' idx sfull).
  - now rewrite H.
  - rewrite (wfi_len _ _ _ W). apply W.
Qed.

Lemma wfi_upd sh idx dim s : wfi sh idx dim -> s_st s = 1 -> wfi sh (upd dim s idx) dim.
Proof.
  intros [A B C D] H. split; auto.
  - now rewrite upd_length.
  - intros d Hd. rewrite upd_length in Hd. rewrite nth_upd. destruct (Nat.eqb dim d && _); auto.
Qed.

Lemma agree_start x idx dim head tail e : pre x idx dim head tail -> core e ->
  agree (shp x) idx dim x (Eof e x dim head (tail - head)) head tail x.
Proof.
  intros [W Hi H1 H2 H3] He. apply agree_init; auto. intros j V S Hj. unfold Eof.
  rewrite He by lia. unfold line. f_equal. replace (head + (nth dim j 0 - head)) with (nth dim j 0) by lia.
  now rewrite upd_nth.
Qed.

Lemma line_dinv_at x dim head j c t : line x dim head (upd dim c j) t = line x dim head j t.
Proof. unfold line. now rewrite upd_upd. Qed.

Lemma pads_ext pf x idx dim head tail e e' : pre x idx dim head tail ->
  (forall f t, e (tail - head) f t = e' (tail - head) f t) ->
  pads pf x idx dim head tail e -> pads pf x idx dim head tail e'.
Proof.
  intros [W Hi H1 H2 H3] He [y [Hy Ha]]. exists y. split; auto. eapply agree_ext; [exact W|exact Ha|].
  intros. apply He.
Qed.

Ltac sl := first [rewrite resolve_srng by lia | rewrite resolve_sto by lia | rewrite resolve_sfrom by lia];
           f_equal; lia.
Ltac fin H := rewrite H; cbn [bind].

(** *** extensionality / core of the specifications *)
Lemma circular_extl : extensional ext_circular.
Proof. intros n f g t Hn H. apply H. apply Z.mod_pos_bound. lia. Qed.
Lemma circular_core : core ext_circular.
Proof. intros n f t H. unfold ext_circular. now rewrite Z.mod_small by lia. Qed.

Lemma symmetric_extl : extensional ext_symmetric.
Proof.
  intros n f g t Hn H. unfold ext_symmetric. pose proof (Z.mod_pos_bound t (2 * n)).
  destruct (Z.ltb_spec (t mod (2 * n)) n); apply H; lia.
Qed.
Lemma symmetric_core : core ext_symmetric.
Proof. intros n f t H. unfold ext_symmetric. rewrite Z.mod_small by lia. zcase; auto; lia. Qed.
Lemma antisymmetric_extl : extensional ext_antisymmetric.
Proof.
  intros n f g t Hn H. unfold ext_antisymmetric. pose proof (Z.mod_pos_bound t (2 * n)).
  destruct (Z.ltb_spec (t mod (2 * n)) n); [|f_equal]; apply H; lia.
Qed.
Lemma antisymmetric_core : core ext_antisymmetric.
Proof. intros n f t H. unfold ext_antisymmetric. rewrite Z.mod_small by lia. zcase; auto; lia. Qed.
Lemma reflect_extl : extensional ext_reflect.
Proof.
  intros n f g t Hn H. unfold ext_reflect. destruct (Z.eqb_spec n 1); [apply H; lia|].
  pose proof (Z.mod_pos_bound t (2 * n - 2)).
  destruct (Z.ltb_spec (t mod (2 * n - 2)) n); apply H; lia.
Qed.
Lemma reflect_core : core ext_reflect.
Proof.
  intros n f t H. unfold ext_reflect. destruct (Z.eqb_spec n 1).
  - f_equal; lia.
  - destruct (Z.eq_dec t (2 * n - 2)); [lia|].
    rewrite Z.mod_small by lia. zcase; auto; lia.
Qed.
Lemma odd_reflect_extl : extensional ext_odd_reflect.
Proof.
  intros n f g t Hn H. unfold ext_odd_reflect. destruct (Z.eqb_spec n 1); [apply H; lia|].
  pose proof (Z.mod_pos_bound t (2 * n - 2)).
  rewrite !(H (n - 1)), !(H 0) by lia. f_equal.
  destruct (Z.ltb_spec (t mod (2 * n - 2)) n); [|f_equal]; apply H; lia.
Qed.
Lemma odd_reflect_core : core ext_odd_reflect.
Proof.
  intros n f t H. unfold ext_odd_reflect. destruct (Z.eqb_spec n 1).
  - f_equal; lia.
  - rewrite Z.mod_small, Z.div_small by lia. zcase; [simpl; ring|lia].
Qed.
Lemma odd_symmetric_extl : extensional ext_odd_symmetric.
Proof.
  intros n f g t Hn H. unfold ext_odd_symmetric.
  pose proof (Z.mod_pos_bound t (2 * n)).
  rewrite !(H (n - 1)), !(H 0) by lia. f_equal.
  destruct (Z.ltb_spec (t mod (2 * n)) n); [|f_equal]; apply H; lia.
Qed.
Lemma odd_symmetric_core : core ext_odd_symmetric.
Proof.
  intros n f t H. unfold ext_odd_symmetric.
  rewrite Z.mod_small, Z.div_small by lia. zcase; [simpl; ring|lia].
Qed.
Lemma replicate_extl : extensional ext_replicate.
Proof. intros n f g t Hn H. apply H. lia. Qed.
Lemma replicate_core : core ext_replicate.
Proof. intros n f t H. unfold ext_replicate. f_equal. lia. Qed.
Lemma smooth_extl : extensional ext_smooth.
Proof.
  intros n f g t Hn H. unfold ext_smooth. destruct (Z.eqb_spec n 1); [apply H; lia|].
  rewrite !(H 0), !(H 1), !(H (n - 1)), !(H (n - 2)) by lia.
  repeat zcase; auto; try (apply H; lia).
Qed.
Lemma smooth_core : core ext_smooth.
Proof. intros n f t H. unfold ext_smooth. repeat zcase; auto; try lia. f_equal; lia. Qed.
Lemma linear_ramp_extl pb pa b a : extensional (ext_linear_ramp pb pa b a).
Proof.
  intros n f g t Hn H. unfold ext_linear_ramp.
  rewrite !(H 0), !(H (n - 1)) by lia.
  repeat zcase; auto; try (apply H; lia).
Qed.
Lemma linear_ramp_core pb pa b a : core (ext_linear_ramp pb pa b a).
Proof. intros n f t H. unfold ext_linear_ramp. repeat zcase; auto; lia. Qed.
Lemma constant_extl b a : extensional (ext_constant b a).
Proof. intros n f g t Hn H. unfold ext_constant. repeat zcase; auto. Qed.
Lemma constant_core b a : core (ext_constant b a).
Proof. intros n f t H. unfold ext_constant. repeat zcase; auto; lia. Qed.
Lemma mod2_cases n : n mod 2 = 0 \/ n mod 2 = 1.
Proof. pose proof (Z.mod_pos_bound n 2). lia. Qed.
Lemma periodize_extl : extensional ext_periodize.
Proof.
  intros n f g t Hn H. unfold ext_periodize. pose proof (Z.mod_pos_bound n 2).
  apply circular_extl; [lia|]. intros u Hu. zcase; apply H; lia.
Qed.
Lemma periodize_core : core ext_periodize.
Proof.
  intros n f t H. unfold ext_periodize. pose proof (Z.mod_pos_bound n 2).
  rewrite circular_core by lia. zcase; auto; lia.
Qed.
Lemma map_ext_zrange (f g : Z -> F) w :
  (forall u, 0 <= u < w -> f u = g u) -> map f (zrange w) = map g (zrange w).
Proof. intros H. apply map_ext_in. intros a Ha. apply H. now apply In_zrange. Qed.
Lemma clip_range n w : 1 <= n -> 1 <= clip_window n w <= n.
Proof. intros. unfold clip_window. destruct w; lia. Qed.
Lemma stat_extl st wb wa : extensional (ext_stat st wb wa).
Proof.
  intros n f g t Hn H. unfold ext_stat.
  pose proof (clip_range n wb Hn). pose proof (clip_range n wa Hn).
  repeat zcase; auto; f_equal; apply map_ext_zrange; intros; apply H; lia.
Qed.
Lemma stat_core st wb wa : core (ext_stat st wb wa).
Proof. intros n f t H. unfold ext_stat. repeat zcase; auto; lia. Qed.

(** *** replicate *)
Lemma replicate_pads x idx dim head tail : pre x idx dim head tail ->
  pads replicate_1d x idx dim head tail ext_replicate.
Proof.
  intros P. pose proof P as [W Hi H1 H2 H3].
  pose proof (agree_start _ _ _ _ _ _ P replicate_core) as A.
  pose proof (Eof_dinv ext_replicate x dim head (tail - head) replicate_extl ltac:(lia)) as HE.
  set (E := Eof ext_replicate x dim head (tail - head)) in *.
  set (N := nth dim (shp x) 0) in *.
  unfold pads, replicate_1d, modify_idx. rewrite (head_tail_ok _ _ _ _ _ W Hi). simpl bind. fold N.
  assert (B : exists y, (if 0 <? head then
      v <- tget x (upd dim (srng head (head + 1)) idx);; tset x (upd dim (sto head) idx) v
      else Ok x) = Ok y /\ agree (shp x) idx dim x E 0 tail y).
  { destruct (Z.ltb_spec 0 head).
    - destruct (agree_get (shp x) idx dim W x E head tail x (srng head (head + 1)) head 1 HE A) as [v [Hv Hf]];
        try lia. { sl. }
      fin Hv. apply (frep_one _ _ _ W v head) in Hf.
      apply (agree_set_before (shp x) idx dim W x E head tail x (sto head) v 0
               (fun j _ => E j (head + 0))); auto; try lia.
      + fold N; sl.
      + now replace (head - 0) with head by lia.
      + intros j k Hj Hk. unfold E, Eof, ext_replicate. f_equal. lia.
    - exists x. split; auto. now replace 0 with head by lia. }
  destruct B as [y [Hy B]]. fin Hy. unfold dimlen. rewrite (proj1 B). fold N.
  destruct (Z.ltb_spec tail N).
  - destruct (agree_get (shp x) idx dim W x E 0 tail y (srng (tail - 1) tail) (tail - 1) 1 HE B) as [v [Hv Hf]];
      try lia. { fold N; sl. }
    fin Hv. apply (frep_one _ _ _ W v (N - tail)) in Hf.
    apply (agree_set_after (shp x) idx dim W x E 0 tail y (sfrom tail) v N
               (fun j _ => E j (tail - 1 + 0))); auto; try lia.
    + fold N; sl.
    + intros j k Hj Hk. unfold E, Eof, ext_replicate. f_equal. lia.
  - exists y. split; auto. now replace N with tail by lia.
Qed.

(** *** Shared set-up for the loops *)
Lemma divmod_eq p a m : 0 <= m < p -> (p * a + m) / p = a /\ (p * a + m) mod p = m.
Proof.
  intros H. split; symmetry.
  - apply Z.div_unique with m; lia.
  - apply Z.mod_unique with a; lia.
Qed.
Lemma mod_eq p a m : 0 <= m < p -> (p * a + m) mod p = m.
Proof. apply divmod_eq. Qed.
Lemma div_eq p a m : 0 <= m < p -> (p * a + m) / p = a.
Proof. apply divmod_eq. Qed.
Lemma divmod_get p t : 0 < p -> exists a m, t = p * a + m /\ 0 <= m < p.
Proof.
  intros H. exists (t / p), (t mod p). split; [apply Z.div_mod; lia|apply Z.mod_pos_bound; lia].
Qed.
Lemma mod_shift n t u : 0 < n -> (exists q, t = u + q * n) -> t mod n = u mod n.
Proof. intros Hn [q ->]. apply Z.mod_add. lia. Qed.

Lemma set_before sh idx dim (W : wfi sh idx dim) (x0 : T) E lo hi x sl v m G : dinv dim E ->
  agree sh idx dim x0 E lo hi x -> lrep sh idx dim v m G ->
  resolve (nth dim sh 0) sl = mkR (lo - m) m 1 -> 0 <= m <= lo -> lo <= hi -> hi <= nth dim sh 0 ->
  (forall j k, online sh idx dim j -> 0 <= k < m -> G j k = E j (lo - m + k)) ->
  exists y, tset x (upd dim sl idx) v = Ok y /\ agree sh idx dim x0 E (lo - m) hi y.
Proof.
  intros HE A Hl Hr H1 H2 H3 HG.
  apply (agree_set_before sh idx dim W x0 E lo hi x sl v (lo - m) G); auto; try lia.
  - rewrite Hr. f_equal. lia.
  - now replace (lo - (lo - m)) with m by lia.
  - intros. apply HG; auto. lia.
Qed.
Lemma set_after sh idx dim (W : wfi sh idx dim) (x0 : T) E lo hi x sl v m G : dinv dim E ->
  agree sh idx dim x0 E lo hi x -> lrep sh idx dim v m G ->
  resolve (nth dim sh 0) sl = mkR hi m 1 -> 0 <= m -> 0 <= lo <= hi -> hi + m <= nth dim sh 0 ->
  (forall j k, online sh idx dim j -> 0 <= k < m -> G j k = E j (hi + k)) ->
  exists y, tset x (upd dim sl idx) v = Ok y /\ agree sh idx dim x0 E lo (hi + m) y.
Proof.
  intros HE A Hl Hr H1 H2 H3 HG.
  apply (agree_set_after sh idx dim W x0 E lo hi x sl v (hi + m) G); auto; try lia.
  - rewrite Hr. f_equal. lia.
  - now replace (hi + m - hi) with m by lia.
  - intros. apply HG; auto. lia.
Qed.

Section Loops.
Variables (x0 : T) (idx : list slice) (dim : nat) (head tail : Z).
Hypothesis P : pre x0 idx dim head tail.
Let sh := shp x0.
Let N := nth dim sh 0.
Let n := tail - head.
Let W : wfi sh idx dim := pre_W _ _ _ _ _ P.

Ltac ctx :=
  pose proof (pre_idx _ _ _ _ _ P) as Hidx; pose proof (pre_head _ _ _ _ _ P) as Hhead;
  pose proof (pre_ht _ _ _ _ _ P) as Hht; pose proof (pre_tail _ _ _ _ _ P) as Htail;
  fold sh in Htail; fold N in Htail.
Ltac rs := fold sh; fold N; sl.

(** circular *)
Lemma circular_step n' (f : Z -> F) t u : 0 < n' -> (exists q, t = u + q * n') ->
  ext_circular n' f t = ext_circular n' f u.
Proof. intros. unfold ext_circular. f_equal. now apply mod_shift. Qed.

Let Ec := Eof ext_circular x0 dim head n.
Lemma Ec_dinv : dinv dim Ec.
Proof. ctx. apply Eof_dinv; [apply circular_extl|lia]. Qed.

Lemma circular_before_ok fuel x curr :
  agree sh idx dim x0 Ec curr tail x -> curr <= Z.of_nat fuel -> 0 <= curr <= head ->
  (curr = 0 \/ exists q, curr = head - q * n) ->
  exists y, circular_before fuel x idx dim tail n curr = Ok y /\ agree sh idx dim x0 Ec 0 tail y.
Proof.
  revert x curr. induction fuel as [|fuel IH]; intros x curr A Hf Hc Hq; simpl;
    (destruct (Z.ltb_spec 0 curr); [|exists x; split; auto; now replace 0 with curr by lia]); [lia|].
  ctx. destruct Hq as [|[q Hq]]; [lia|].
  set (chunk := Z.min curr n). unfold modify_idx.
  destruct (agree_get sh idx dim W x0 Ec curr tail x (srng (tail - chunk) tail) (tail - chunk) chunk Ec_dinv A) as [v [Hv Hfr]];
    try lia. { rs. }
  fin Hv.
  destruct (agree_set_before sh idx dim W x0 Ec curr tail x (srng (curr - chunk) curr) v (curr - chunk)
              (fun j k => Ec j (tail - chunk + k)) Ec_dinv A) as [y [Hy Ay]]; try lia.
  { rs. }
  { replace (curr - (curr - chunk)) with chunk by lia. now apply frep_lrep. }
  { intros j k Hj Hk. unfold Ec, Eof. apply circular_step; [lia|]. exists (q + 1). unfold n in *. lia. }
  fin Hy. apply IH; auto; try lia.
  destruct (Z_le_gt_dec curr n); [left; lia|right; exists (q + 1); lia].
Qed.

Lemma circular_after_ok fuel x curr :
  agree sh idx dim x0 Ec 0 curr x -> N - curr <= Z.of_nat fuel -> tail <= curr <= N ->
  (curr = N \/ exists q, curr = head + q * n) ->
  exists y, circular_after fuel x idx dim head n curr = Ok y /\ agree sh idx dim x0 Ec 0 N y.
Proof.
  revert x curr. induction fuel as [|fuel IH]; intros x curr A Hf Hc Hq; simpl;
    unfold dimlen; rewrite (proj1 A); fold N;
    (destruct (Z.ltb_spec curr N); [|exists x; split; auto; now replace N with curr by lia]); [lia|].
  ctx. destruct Hq as [|[q Hq]]; [lia|].
  set (chunk := Z.min (N - curr) n). unfold modify_idx.
  destruct (agree_get sh idx dim W x0 Ec 0 curr x (srng head (head + chunk)) head chunk Ec_dinv A) as [v [Hv Hfr]];
    try lia. { rs. }
  fin Hv.
  destruct (agree_set_after sh idx dim W x0 Ec 0 curr x (srng curr (curr + chunk)) v (curr + chunk)
              (fun j k => Ec j (head + k)) Ec_dinv A) as [y [Hy Ay]]; try lia.
  { rs. }
  { replace (curr + chunk - curr) with chunk by lia. now apply frep_lrep. }
  { intros j k Hj Hk. unfold Ec, Eof. apply circular_step; [lia|]. exists (- q). unfold n in *. lia. }
  fin Hy. apply IH; auto; try lia.
  destruct (Z_le_gt_dec (N - curr) n); [left; lia|right; exists (q + 1); lia].
Qed.

Lemma circular_pads fuel : N <= Z.of_nat fuel ->
  pads (circular_1d fuel) x0 idx dim head tail ext_circular.
Proof.
  intros Hfuel. pose proof P as P'. ctx. unfold pads, circular_1d.
  rewrite (head_tail_ok _ _ _ _ _ W Hidx). cbn [bind]. fold n.
  destruct (Z.eqb_spec n 1).
  - change (pads replicate_1d x0 idx dim head tail ext_circular).
    eapply pads_ext; [exact P'| |apply replicate_pads; auto].
    intros f t. fold n. unfold ext_replicate, ext_circular. rewrite e, Z.mod_1_r. f_equal. lia.
  - destruct (circular_before_ok fuel x0 head) as [y [Hy Ay]]; auto; try lia.
    + apply agree_start; auto. apply circular_core.
    + right. exists 0. lia.
    + fin Hy. apply circular_after_ok; auto; try lia. right. exists 1. unfold n. lia.
Qed.

(** symmetric / antisymmetric *)
Definition sg (negate : bool) (a : F) : F := if negate then fopp a else a.
Definition ext_sym (negate : bool) (n' : Z) (f : Z -> F) (t : Z) : F :=
  if negate then ext_antisymmetric n' f t else ext_symmetric n' f t.
Lemma sg_sg b a : sg b (sg b a) = a.
Proof. destruct b; simpl; auto. ring. Qed.
Lemma ext_sym_unfold b n' f t :
  ext_sym b n' f t = let m := t mod (2 * n') in if m <? n' then f m else sg b (f (2 * n' - 1 - m)).
Proof. destruct b; reflexivity. Qed.
Lemma sym_period b n' f t u : 0 < n' -> (exists q, t = u + q * (2 * n')) ->
  ext_sym b n' f t = ext_sym b n' f u.
Proof. intros. rewrite !ext_sym_unfold. cbv zeta. rewrite (mod_shift (2 * n') t u); auto. lia. Qed.
Lemma sym_mirror b n' f t u : 0 < n' -> (exists q, t = -1 - u + q * (2 * n')) ->
  ext_sym b n' f t = sg b (ext_sym b n' f u).
Proof.
  intros Hn [q ->]. rewrite (sym_period b n' f _ (-1 - u)) by eauto.
  rewrite !ext_sym_unfold. cbv zeta.
  destruct (divmod_get (2 * n') u) as [a [m [-> Hm]]]; [lia|].
  replace (-1 - (2 * n' * a + m)) with (2 * n' * (- a - 1) + (2 * n' - 1 - m)) by lia.
  rewrite !mod_eq by lia.
  destruct (Z.ltb_spec (2 * n' - 1 - m) n'), (Z.ltb_spec m n'); try lia.
  - rewrite sg_sg. f_equal.
  - f_equal. f_equal. lia.
Qed.
Lemma sym_extl b : extensional (ext_sym b).
Proof. destruct b; [apply antisymmetric_extl|apply symmetric_extl]. Qed.
Lemma sym_core b : core (ext_sym b).
Proof. destruct b; [apply antisymmetric_core|apply symmetric_core]. Qed.

Variable neg : bool.
Let Es := Eof (ext_sym neg) x0 dim head n.
Lemma Es_dinv : dinv dim Es.
Proof. ctx. apply Eof_dinv; [apply sym_extl|lia]. Qed.
Lemma frep_neg_if v m G : frep sh idx dim v m G ->
  frep sh idx dim (neg_if neg v) m (fun j k => sg neg (G j k)).
Proof. destruct neg; simpl; auto. apply frep_map. Qed.

Definition cache_sym (c : option T) : Prop :=
  match c with None => True
  | Some c => frep sh idx dim c n (fun j k => sg neg (Es j (head + (n - 1 - k)))) end.

Lemma symmetric_before_ok fuel cache x curr (flip : bool) :
  cache_sym cache ->
  agree sh idx dim x0 Es curr tail x -> curr <= Z.of_nat fuel -> 0 <= curr <= head ->
  (curr = 0 \/ exists q, curr = head - (if flip then 2 * q else 2 * q + 1) * n) ->
  exists y, symmetric_before fuel neg cache x idx dim tail n curr flip = Ok y /\
    agree sh idx dim x0 Es 0 tail y.
Proof.
  intros HC. revert x curr flip. induction fuel as [|fuel IH]; intros x curr flip A Hf Hc Hq; simpl;
    (destruct (Z.ltb_spec 0 curr); [|exists x; split; auto; now replace 0 with curr by lia]); [lia|].
  ctx. destruct Hq as [|[q Hq]]; [lia|].
  set (chunk := Z.min curr n). unfold modify_idx.
  assert (Hv : exists v, (if flip then
              match cache with
              | None => v <- tget x (upd dim (srng curr (curr + chunk)) idx) ;;
                        Ok (neg_if neg (tflip dim v))
              | Some c => tget c (make_idx (mkS (Some (- chunk)) None 1) dim (ndim x))
              end
            else tget x (upd dim (srng (tail - chunk) tail) idx)) = Ok v /\
     exists G, frep sh idx dim v chunk G /\
       forall j k, 0 <= k < chunk -> G j k = Es j (curr - chunk + k)).
  { destruct flip; [destruct cache as [c|]|].
    - unfold ndim. rewrite (proj1 A).
      destruct (tget_make_idx sh idx dim W c n _ (mkS (Some (- chunk)) None 1) (n - chunk) chunk HC)
        as [w [Hw Hfw]]; try lia.
      { unfold resolve. cbn [s_lo s_hi s_st]. unfold clampi.
        destruct (Z.ltb_spec (- chunk) 0); [|lia]. rewrite Z.div_1_r. f_equal; lia. }
      exists w. split; auto. eexists; split; [exact Hfw|]. intros j k Hk. cbv beta.
      unfold Es, Eof. symmetry. apply sym_mirror; [lia|]. exists (- q). lia.
    - destruct (agree_get sh idx dim W x0 Es curr tail x (srng curr (curr + chunk)) curr chunk Es_dinv A)
        as [v [Hv Hfv]]; try lia. { rs. }
      fin Hv. eexists; split; [reflexivity|]. eexists; split.
      { apply frep_neg_if. apply frep_flip; eauto. }
      intros j k Hk. cbv beta. unfold Es, Eof. symmetry. apply sym_mirror; [lia|].
      exists (- (2 * q)). lia.
    - destruct (agree_get sh idx dim W x0 Es curr tail x (srng (tail - chunk) tail) (tail - chunk) chunk Es_dinv A)
        as [v [Hv Hfv]]; try lia. { rs. }
      exists v. split; auto. eexists; split; [exact Hfv|].
      intros j k Hk. cbv beta. unfold Es, Eof. apply sym_period; [lia|].
      exists (q + 1). unfold n in *. lia. }
  destruct Hv as [v [Hv [G [Hfr HG]]]]. fin Hv.
  destruct (agree_set_before sh idx dim W x0 Es curr tail x (srng (curr - chunk) curr) v (curr - chunk)
              G Es_dinv A) as [y [Hy Ay]]; try lia.
  { rs. }
  { replace (curr - (curr - chunk)) with chunk by lia. now apply frep_lrep. }
  { intros j k Hj Hk. apply HG. lia. }
  fin Hy. apply IH; auto; try lia.
  destruct (Z_le_gt_dec curr n); [left; lia|right].
  destruct flip; cbn [negb]; [exists q|exists (q + 1)]; lia.
Qed.

Lemma symmetric_after_ok fuel cache x curr (flip : bool) :
  cache_sym cache ->
  agree sh idx dim x0 Es 0 curr x -> N - curr <= Z.of_nat fuel -> tail <= curr <= N ->
  (curr = N \/ exists q, curr = tail + (if flip then 2 * q else 2 * q + 1) * n) ->
  exists y, symmetric_after fuel neg cache x idx dim head n curr flip = Ok y /\
    agree sh idx dim x0 Es 0 N y.
Proof.
  intros HC. revert x curr flip. induction fuel as [|fuel IH]; intros x curr flip A Hf Hc Hq; simpl;
    unfold dimlen; rewrite (proj1 A); fold N;
    (destruct (Z.ltb_spec curr N); [|exists x; split; auto; now replace N with curr by lia]); [lia|].
  ctx. destruct Hq as [|[q Hq]]; [lia|].
  set (chunk := Z.min (N - curr) n). unfold modify_idx.
  assert (Hv : exists v, (if flip then
              match cache with
              | None => v <- tget x (upd dim (srng (curr - chunk) curr) idx) ;;
                        Ok (neg_if neg (tflip dim v))
              | Some c => tget c (make_idx (sto chunk) dim (ndim x))
              end
            else tget x (upd dim (srng head (head + chunk)) idx)) = Ok v /\
     exists G, frep sh idx dim v chunk G /\
       forall j k, 0 <= k < chunk -> G j k = Es j (curr + k)).
  { destruct flip; [destruct cache as [c|]|].
    - unfold ndim. rewrite (proj1 A).
      destruct (tget_make_idx sh idx dim W c n _ (sto chunk) 0 chunk HC)
        as [w [Hw Hfw]]; try lia.
      { rewrite resolve_sto by lia. reflexivity. }
      exists w. split; auto. eexists; split; [exact Hfw|]. intros j k Hk. cbv beta.
      unfold Es, Eof. symmetry. apply sym_mirror; [lia|]. exists (q + 1). unfold n in *. lia.
    - destruct (agree_get sh idx dim W x0 Es 0 curr x (srng (curr - chunk) curr) (curr - chunk) chunk Es_dinv A)
        as [v [Hv Hfv]]; try lia. { rs. }
      fin Hv. eexists; split; [reflexivity|]. eexists; split.
      { apply frep_neg_if. apply frep_flip; eauto. }
      intros j k Hk. cbv beta. unfold Es, Eof. symmetry. apply sym_mirror; [lia|].
      exists (2 * q + 1). unfold n in *. lia.
    - destruct (agree_get sh idx dim W x0 Es 0 curr x (srng head (head + chunk)) head chunk Es_dinv A)
        as [v [Hv Hfv]]; try lia. { rs. }
      exists v. split; auto. eexists; split; [exact Hfv|].
      intros j k Hk. cbv beta. unfold Es, Eof. apply sym_period; [lia|].
      exists (- (q + 1)). unfold n in *. lia. }
  destruct Hv as [v [Hv [G [Hfr HG]]]]. fin Hv.
  destruct (agree_set_after sh idx dim W x0 Es 0 curr x (srng curr (curr + chunk)) v (curr + chunk)
              G Es_dinv A) as [y [Hy Ay]]; try lia.
  { rs. }
  { replace (curr + chunk - curr) with chunk by lia. now apply frep_lrep. }
  { intros j k Hj Hk. apply HG. lia. }
  fin Hy. apply IH; auto; try lia.
  destruct (Z_le_gt_dec (N - curr) n); [left; lia|right].
  destruct flip; cbn [negb]; [exists q|exists (q + 1)]; lia.
Qed.

Lemma symmetric_pads fuel : N <= Z.of_nat fuel ->
  pads (fun x idx dim => symmetric_1d fuel x idx dim neg) x0 idx dim head tail (ext_sym neg).
Proof.
  intros Hfuel. ctx. unfold pads, symmetric_1d.
  rewrite (head_tail_ok _ _ _ _ _ W Hidx). cbn [bind]. fold n.
  destruct ((n =? 1) && negb neg) eqn:E1.
  - bdestr. change (pads replicate_1d x0 idx dim head tail (ext_sym neg)).
    eapply pads_ext; [exact P| |apply replicate_pads; apply P].
    intros f t. fold n. rewrite ext_sym_unfold. unfold ext_replicate. rewrite H, H0.
    cbv zeta. unfold sg. change (2 * 1) with 2. pose proof (Z.mod_pos_bound t 2 ltac:(lia)).
    destruct (Z.ltb_spec (t mod 2) 1); f_equal; lia.
  - clear E1.
    assert (Hc : exists c, (if 2 <=? dimlen x0 dim / n
              then v <- tget x0 idx ;; Ok (Some (neg_if neg (tflip dim v)))
              else Ok None) = Ok c /\ cache_sym c).
    { destruct (2 <=? dimlen x0 dim / n); [|exists None; split; [reflexivity|exact I]].
      pose proof (agree_start _ _ _ _ _ _ P (sym_core neg)) as A. fold n sh Es in A.
      destruct (agree_get sh idx dim W x0 Es head tail x0 (srng head tail) head n Es_dinv A)
        as [v [Hv Hfv]]; try (unfold n; lia). { rs. }
      assert (Ei : upd dim (srng head tail) idx = idx) by (rewrite <- Hidx; apply upd_nth).
      rewrite Ei in Hv. fin Hv.
      eexists; split; [reflexivity|]. unfold cache_sym. apply frep_neg_if.
      apply (frep_flip sh idx dim W) in Hfv. exact Hfv. }
    destruct Hc as [c [Hc HC]]. fin Hc.
    destruct (symmetric_before_ok fuel c x0 head true) as [y [Hy Ay]]; auto; try lia.
    + apply agree_start; auto. apply sym_core.
    + right. exists 0. lia.
    + fin Hy. apply symmetric_after_ok; auto; try lia. right. exists 0. lia.
Qed.

(** reflect *)
Lemma reflect_period n' (f : Z -> F) t u : 2 <= n' -> (exists q, t = u + q * (2 * n' - 2)) ->
  ext_reflect n' f t = ext_reflect n' f u.
Proof.
  intros. unfold ext_reflect. destruct (Z.eqb_spec n' 1); auto.
  cbv zeta. rewrite (mod_shift (2 * n' - 2) t u); auto. lia.
Qed.
Lemma reflect_mirror n' (f : Z -> F) t u : 2 <= n' -> (exists q, t = - u + q * (2 * n' - 2)) ->
  ext_reflect n' f t = ext_reflect n' f u.
Proof.
  intros Hn [q ->]. rewrite (reflect_period n' f _ (- u)) by eauto.
  unfold ext_reflect. destruct (Z.eqb_spec n' 1); auto. cbv zeta.
  destruct (divmod_get (2 * n' - 2) u) as [a [m [-> Hm]]]; [lia|].
  destruct (Z.eq_dec m 0).
  - subst m. replace (- ((2 * n' - 2) * a + 0)) with ((2 * n' - 2) * (- a) + 0) by lia.
    rewrite !mod_eq by lia. auto.
  - replace (- ((2 * n' - 2) * a + m)) with ((2 * n' - 2) * (- a - 1) + (2 * n' - 2 - m)) by lia.
    rewrite !mod_eq by lia.
    destruct (Z.ltb_spec (2 * n' - 2 - m) n'), (Z.ltb_spec m n'); f_equal; lia.
Qed.
Let Er := Eof ext_reflect x0 dim head n.
Lemma Er_dinv : dinv dim Er.
Proof. ctx. apply Eof_dinv; [apply reflect_extl|lia]. Qed.

Definition cache_refl (c : option T) : Prop :=
  match c with None => True
  | Some c => frep sh idx dim c (n - 2) (fun j k => Er j (head + 1 + (n - 2 - 1 - k))) end.

Lemma reflect_before_ok fuel cache x curr (flip : bool) : 3 <= n ->
  cache_refl cache ->
  agree sh idx dim x0 Er curr tail x -> curr <= Z.of_nat fuel -> 0 <= curr <= head ->
  (curr = 0 \/ exists q, curr = head - q * (2 * n - 2) - (if flip then 0 else n - 2)) ->
  exists y, reflect_before fuel cache x idx dim tail n curr flip = Ok y /\
    agree sh idx dim x0 Er 0 tail y.
Proof.
  intros Hn3 HC. revert x curr flip. induction fuel as [|fuel IH]; intros x curr flip A Hf Hc Hq; simpl;
    (destruct (Z.ltb_spec 0 curr); [|exists x; split; auto; now replace 0 with curr by lia]); [lia|].
  ctx. destruct Hq as [|[q Hq]]; [lia|].
  set (chunk := Z.min curr (if flip then n - 2 else n)). unfold modify_idx.
  assert (Hch : 0 < chunk <= n) by (destruct flip; lia).
  assert (Hv : exists v, (if flip then
              match cache with
              | None => v <- tget x (upd dim (srng (curr + 1) (curr + 1 + chunk)) idx) ;;
                        Ok (tflip dim v)
              | Some c => tget c (make_idx (mkS (Some (- chunk)) None 1) dim (ndim x))
              end
            else tget x (upd dim (srng (tail - chunk) tail) idx)) = Ok v /\
     exists G, frep sh idx dim v chunk G /\
       forall j k, 0 <= k < chunk -> G j k = Er j (curr - chunk + k)).
  { destruct flip; [destruct cache as [c|]|].
    - unfold ndim. rewrite (proj1 A).
      destruct (tget_make_idx sh idx dim W c (n - 2) _ (mkS (Some (- chunk)) None 1) (n - 2 - chunk) chunk HC)
        as [w [Hw Hfw]]; try lia.
      { unfold resolve. cbn [s_lo s_hi s_st]. unfold clampi.
        destruct (Z.ltb_spec (- chunk) 0); [|lia]. rewrite Z.div_1_r. f_equal; lia. }
      exists w. split; auto. eexists; split; [exact Hfw|]. intros j k Hk. cbv beta.
      unfold Er, Eof. symmetry. apply reflect_mirror; [lia|]. exists (- q). lia.
    - destruct (agree_get sh idx dim W x0 Er curr tail x (srng (curr + 1) (curr + 1 + chunk)) (curr + 1) chunk Er_dinv A)
        as [v [Hv Hfv]]; try lia. { rs. }
      fin Hv. eexists; split; [reflexivity|]. eexists; split.
      { apply frep_flip; eauto. }
      intros j k Hk. cbv beta. unfold Er, Eof. symmetry. apply reflect_mirror; [lia|].
      exists (- (2 * q)). lia.
    - destruct (agree_get sh idx dim W x0 Er curr tail x (srng (tail - chunk) tail) (tail - chunk) chunk Er_dinv A)
        as [v [Hv Hfv]]; try lia. { rs. }
      exists v. split; auto. eexists; split; [exact Hfv|].
      intros j k Hk. cbv beta. unfold Er, Eof. apply reflect_period; [lia|].
      exists (q + 1). unfold n in *. lia. }
  destruct Hv as [v [Hv [G [Hfr HG]]]]. fin Hv.
  destruct (agree_set_before sh idx dim W x0 Er curr tail x (srng (curr - chunk) curr) v (curr - chunk)
              G Er_dinv A) as [y [Hy Ay]]; try lia.
  { rs. }
  { replace (curr - (curr - chunk)) with chunk by lia. now apply frep_lrep. }
  { intros j k Hj Hk. apply HG. lia. }
  fin Hy. apply IH; auto; try lia.
  destruct (Z.eq_dec chunk curr); [left; lia|right].
  destruct flip; cbn [negb]; [exists q|exists (q + 1)]; lia.
Qed.

Lemma reflect_after_ok fuel cache x curr (flip : bool) : 3 <= n ->
  cache_refl cache ->
  agree sh idx dim x0 Er 0 curr x -> N - curr <= Z.of_nat fuel -> tail <= curr <= N ->
  (curr = N \/ exists q, curr = tail + q * (2 * n - 2) + (if flip then 0 else n - 2)) ->
  exists y, reflect_after fuel cache x idx dim head n curr flip = Ok y /\
    agree sh idx dim x0 Er 0 N y.
Proof.
  intros Hn3 HC. revert x curr flip. induction fuel as [|fuel IH]; intros x curr flip A Hf Hc Hq; simpl;
    unfold dimlen; rewrite (proj1 A); fold N;
    (destruct (Z.ltb_spec curr N); [|exists x; split; auto; now replace N with curr by lia]); [lia|].
  ctx. destruct Hq as [|[q Hq]]; [lia|].
  set (chunk := Z.min (N - curr) (if flip then n - 2 else n)). unfold modify_idx.
  assert (Hch : 0 < chunk <= n) by (destruct flip; lia).
  assert (Hv : exists v, (if flip then
              match cache with
              | None => v <- tget x (upd dim (srng (curr - 1 - chunk) (curr - 1)) idx) ;;
                        Ok (tflip dim v)
              | Some c => tget c (make_idx (sto chunk) dim (ndim x))
              end
            else tget x (upd dim (srng head (head + chunk)) idx)) = Ok v /\
     exists G, frep sh idx dim v chunk G /\
       forall j k, 0 <= k < chunk -> G j k = Er j (curr + k)).
  { destruct flip; [destruct cache as [c|]|].
    - unfold ndim. rewrite (proj1 A).
      destruct (tget_make_idx sh idx dim W c (n - 2) _ (sto chunk) 0 chunk HC)
        as [w [Hw Hfw]]; try lia.
      { rewrite resolve_sto by lia. reflexivity. }
      exists w. split; auto. eexists; split; [exact Hfw|]. intros j k Hk. cbv beta.
      unfold Er, Eof. symmetry. apply reflect_mirror; [lia|]. exists (q + 1). unfold n in *. lia.
    - destruct (agree_get sh idx dim W x0 Er 0 curr x (srng (curr - 1 - chunk) (curr - 1)) (curr - 1 - chunk) chunk Er_dinv A)
        as [v [Hv Hfv]]; try lia. { rs. }
      fin Hv. eexists; split; [reflexivity|]. eexists; split.
      { apply frep_flip; eauto. }
      intros j k Hk. cbv beta. unfold Er, Eof. symmetry. apply reflect_mirror; [lia|].
      exists (2 * q + 1). unfold n in *. lia.
    - destruct (agree_get sh idx dim W x0 Er 0 curr x (srng head (head + chunk)) head chunk Er_dinv A)
        as [v [Hv Hfv]]; try lia. { rs. }
      exists v. split; auto. eexists; split; [exact Hfv|].
      intros j k Hk. cbv beta. unfold Er, Eof. apply reflect_period; [lia|].
      exists (- (q + 1)). unfold n in *. lia. }
  destruct Hv as [v [Hv [G [Hfr HG]]]]. fin Hv.
  destruct (agree_set_after sh idx dim W x0 Er 0 curr x (srng curr (curr + chunk)) v (curr + chunk)
              G Er_dinv A) as [y [Hy Ay]]; try lia.
  { rs. }
  { replace (curr + chunk - curr) with chunk by lia. now apply frep_lrep. }
  { intros j k Hj Hk. apply HG. lia. }
  fin Hy. apply IH; auto; try lia.
  destruct (Z.eq_dec chunk (N - curr)); [left; lia|right].
  destruct flip; cbn [negb]; [exists q|exists (q + 1)]; lia.
Qed.

Lemma reflect_pads fuel : N <= Z.of_nat fuel ->
  pads (reflect_1d fuel) x0 idx dim head tail ext_reflect.
Proof.
  intros Hfuel. ctx. unfold pads, reflect_1d.
  rewrite (head_tail_ok _ _ _ _ _ W Hidx). cbn [bind]. fold n.
  destruct (Z.eqb_spec n 1); [|destruct (Z.eqb_spec n 2)].
  - change (pads replicate_1d x0 idx dim head tail ext_reflect).
    eapply pads_ext; [exact P| |apply replicate_pads; apply P].
    intros f t. fold n. unfold ext_replicate, ext_reflect. rewrite e. simpl. f_equal. lia.
  - change (pads (circular_1d fuel) x0 idx dim head tail ext_reflect).
    eapply pads_ext; [exact P| |apply circular_pads; apply Hfuel].
    intros f t. fold n. unfold ext_circular, ext_reflect. rewrite e. simpl.
    pose proof (Z.mod_pos_bound t 2 ltac:(lia)). destruct (Z.ltb_spec (t mod 2) 2); auto; lia.
  - assert (Hn : 3 <= n) by (unfold n in *; lia).
    assert (Hc : exists c, (if 2 <=? dimlen x0 dim / n
              then v <- tget x0 (modify_idx (srng (head + 1) (tail - 1)) idx dim) ;;
                   Ok (Some (tflip dim v))
              else Ok None) = Ok c /\ cache_refl c).
    { destruct (2 <=? dimlen x0 dim / n); [|exists None; split; [reflexivity|exact I]].
      pose proof (agree_start _ _ _ _ _ _ P reflect_core) as A. fold n sh Er in A.
      unfold modify_idx.
      destruct (agree_get sh idx dim W x0 Er head tail x0 (srng (head + 1) (tail - 1)) (head + 1) (n - 2) Er_dinv A)
        as [v [Hv Hfv]]; try (unfold n; lia). { rs. }
      fin Hv. eexists; split; [reflexivity|]. unfold cache_refl.
      apply (frep_flip sh idx dim W) in Hfv. exact Hfv. }
    destruct Hc as [c [Hc HC]]. fin Hc.
    destruct (reflect_before_ok fuel c x0 head true) as [y [Hy Ay]]; auto; try lia.
    + apply agree_start; auto. apply reflect_core.
    + right. exists 0. lia.
    + fin Hy. apply reflect_after_ok; auto; try lia. right. exists 0. lia.
Qed.

(** odd symmetric *)
Lemma odd_symmetric_shift n' (f : Z -> F) t q : 1 <= n' ->
  ext_odd_symmetric n' f (t + q * (2 * n')) =
  fadd (ext_odd_symmetric n' f t) (fmul (fofZ q) (fmul (fofZ 2) (fsub (f (n' - 1)) (f 0)))).
Proof.
  intros Hn. unfold ext_odd_symmetric. cbv zeta.
  rewrite Z.mod_add, Z.div_add, fofZ_add by lia. ring.
Qed.
Lemma odd_symmetric_mirror0 n' (f : Z -> F) t : 1 <= n' ->
  ext_odd_symmetric n' f (-1 - t) = fsub (fmul (fofZ 2) (f 0)) (ext_odd_symmetric n' f t).
Proof.
  intros Hn. unfold ext_odd_symmetric. cbv zeta.
  destruct (divmod_get (2 * n') t) as [a [m [-> Hm]]]; [lia|].
  replace (-1 - (2 * n' * a + m)) with (2 * n' * (- a - 1) + (2 * n' - 1 - m)) by lia.
  rewrite !mod_eq, !div_eq by lia.
  rewrite fofZ_sub, fofZ_opp, fofZ_1.
  replace (2 * n' - 1 - (2 * n' - 1 - m)) with m by lia.
  destruct (Z.ltb_spec (2 * n' - 1 - m) n'), (Z.ltb_spec m n'); try lia; ring.
Qed.
(** point reflection about every multiple of n (half sample before it) *)
Lemma odd_symmetric_mirror n' (f : Z -> F) q s : 1 <= n' ->
  ext_odd_symmetric n' f (q * n' - 1 - s) =
  fsub (fmul (fofZ 2) (ext_odd_symmetric n' f (q * n'))) (ext_odd_symmetric n' f (q * n' + s)).
Proof.
  intros Hn. destruct (Z.Even_or_Odd q) as [[r ->]|[r ->]].
  - replace (2 * r * n' - 1 - s) with (-1 - s + r * (2 * n')) by lia.
    replace (2 * r * n' + s) with (s + r * (2 * n')) by lia.
    replace (2 * r * n') with (0 + r * (2 * n')) by lia.
    rewrite !odd_symmetric_shift, odd_symmetric_mirror0 by lia.
    rewrite (odd_symmetric_core n' f 0) by lia. simpl fofZ. ring.
  - replace ((2 * r + 1) * n' - 1 - s) with (n' - 1 - s + r * (2 * n')) by lia.
    replace ((2 * r + 1) * n' + s) with (-1 - (n' - 1 - s) + (r + 1) * (2 * n')) by lia.
    replace ((2 * r + 1) * n') with (-1 - (n' - 1) + (r + 1) * (2 * n')) by lia.
    rewrite !odd_symmetric_shift, !odd_symmetric_mirror0 by lia.
    rewrite (odd_symmetric_core n' f (n' - 1)) by lia. rewrite fofZ_add, fofZ_1. simpl fofZ. ring.
Qed.
Lemma odd_symmetric_flat n' (f : Z -> F) q : 1 <= n' ->
  ext_odd_symmetric n' f (q * n' - 1) = ext_odd_symmetric n' f (q * n').
Proof.
  intros Hn. pose proof (odd_symmetric_mirror n' f q 0 Hn) as H.
  rewrite Z.sub_0_r, Z.add_0_r in H. rewrite H. simpl fofZ. ring.
Qed.

Let Eos := Eof ext_odd_symmetric x0 dim head n.
Lemma Eos_dinv : dinv dim Eos.
Proof. ctx. apply Eof_dinv; [apply odd_symmetric_extl|lia]. Qed.

Lemma two_a_minus_b_ok (a b : T) m G H :
  frep sh idx dim a 1 G -> frep sh idx dim b m H ->
  exists v, two_a_minus_b a (tflip dim b) = Ok v /\
    lrep sh idx dim v m (fun j k => @fsub F (@fmul F (fofZ 2) (G j 0)) (H j (m - 1 - k))).
Proof.
  intros Ha Hb. apply (frep_one sh idx dim W a m) in Ha. apply (lrep_map sh idx dim (@fmul F (fofZ 2))) in Ha.
  apply (frep_flip sh idx dim W) in Hb. apply (frep_lrep sh idx dim) in Hb.
  destruct (lrep_map2 sh idx dim (@fsub F) _ _ _ _ _ Ha Hb) as [w [Hw Hl]]. exists w. split; auto.
Qed.

Lemma odd_symmetric_before_ok fuel x curr :
  agree sh idx dim x0 Eos curr tail x -> curr <= Z.of_nat fuel -> 0 <= curr <= head ->
  (curr = 0 \/ exists q, curr = head - q * n) ->
  exists y, odd_symmetric_before fuel x idx dim n curr = Ok y /\ agree sh idx dim x0 Eos 0 tail y.
Proof.
  revert x curr. induction fuel as [|fuel IH]; intros x curr A Hf Hc Hq; simpl;
    (destruct (Z.ltb_spec 0 curr); [|exists x; split; auto; now replace 0 with curr by lia]); [lia|].
  ctx. destruct Hq as [|[q Hq]]; [lia|].
  set (chunk := Z.min curr n). unfold modify_idx.
  destruct (agree_get sh idx dim W x0 Eos curr tail x (srng curr (curr + 1)) curr 1 Eos_dinv A) as [a [Ha Hfa]];
    try lia. { rs. }
  fin Ha.
  destruct (agree_get sh idx dim W x0 Eos curr tail x (srng curr (curr + chunk)) curr chunk Eos_dinv A) as [b [Hb Hfb]];
    try lia. { rs. }
  fin Hb.
  destruct (two_a_minus_b_ok _ _ _ _ _ Hfa Hfb) as [v [Hv Hl]]. fin Hv.
  destruct (set_before sh idx dim W x0 Eos curr tail x (srng (curr - chunk) curr) v chunk _ Eos_dinv A Hl) as [y [Hy Ay]]; try lia.
  { rs. }
  { intros j k Hj Hk. cbv beta. unfold Eos, Eof.
    pose proof (odd_symmetric_mirror n (line x0 dim head j) (- q) (chunk - 1 - k) ltac:(lia)) as E.
    replace (curr - chunk + k - head) with (- q * n - 1 - (chunk - 1 - k)) by lia.
    rewrite E. f_equal; [f_equal|]; f_equal; lia. }
  fin Hy. apply IH; auto; try lia.
  destruct (Z_le_gt_dec curr n); [left; lia|right; exists (q + 1); lia].
Qed.

Lemma odd_symmetric_after_ok fuel x curr :
  agree sh idx dim x0 Eos 0 curr x -> N - curr <= Z.of_nat fuel -> tail <= curr <= N ->
  (curr = N \/ exists q, curr = head + q * n) ->
  exists y, odd_symmetric_after fuel x idx dim n curr = Ok y /\ agree sh idx dim x0 Eos 0 N y.
Proof.
  revert x curr. induction fuel as [|fuel IH]; intros x curr A Hf Hc Hq; simpl;
    unfold dimlen; rewrite (proj1 A); fold N;
    (destruct (Z.ltb_spec curr N); [|exists x; split; auto; now replace N with curr by lia]); [lia|].
  ctx. destruct Hq as [|[q Hq]]; [lia|].
  set (chunk := Z.min (N - curr) n). unfold modify_idx.
  destruct (agree_get sh idx dim W x0 Eos 0 curr x (srng (curr - 1) curr) (curr - 1) 1 Eos_dinv A) as [a [Ha Hfa]];
    try lia. { rs. }
  fin Ha.
  destruct (agree_get sh idx dim W x0 Eos 0 curr x (srng (curr - chunk) curr) (curr - chunk) chunk Eos_dinv A) as [b [Hb Hfb]];
    try lia. { rs. }
  fin Hb.
  destruct (two_a_minus_b_ok _ _ _ _ _ Hfa Hfb) as [v [Hv Hl]]. fin Hv.
  destruct (set_after sh idx dim W x0 Eos 0 curr x (srng curr (curr + chunk)) v chunk _ Eos_dinv A Hl) as [y [Hy Ay]]; try lia.
  { rs. }
  { intros j k Hj Hk. cbv beta. unfold Eos, Eof.
    pose proof (odd_symmetric_mirror n (line x0 dim head j) q k ltac:(lia)) as E.
    pose proof (odd_symmetric_flat n (line x0 dim head j) q ltac:(lia)) as E2.
    replace (curr - 1 + 0 - head) with (q * n - 1) by lia. rewrite E2.
    replace (curr - chunk + (chunk - 1 - k) - head) with (q * n - 1 - k) by lia. rewrite E.
    replace (curr + k - head) with (q * n + k) by lia. ring. }
  fin Hy. apply IH; auto; try lia.
  destruct (Z_le_gt_dec (N - curr) n); [left; lia|right; exists (q + 1); lia].
Qed.

Lemma odd_symmetric_pads fuel : N <= Z.of_nat fuel ->
  pads (odd_symmetric_1d fuel) x0 idx dim head tail ext_odd_symmetric.
Proof.
  intros Hfuel. ctx. unfold pads, odd_symmetric_1d.
  rewrite (head_tail_ok _ _ _ _ _ W Hidx). cbn [bind]. fold n.
  destruct (odd_symmetric_before_ok fuel x0 head) as [y [Hy Ay]]; auto; try lia.
  - apply agree_start; auto. apply odd_symmetric_core.
  - right. exists 0. lia.
  - fin Hy. apply odd_symmetric_after_ok; auto; try lia. right. exists 1. unfold n. lia.
Qed.

(** odd reflect *)
Lemma odd_reflect_shift n' (f : Z -> F) t q : 2 <= n' ->
  ext_odd_reflect n' f (t + q * (2 * n' - 2)) =
  fadd (ext_odd_reflect n' f t) (fmul (fofZ q) (fmul (fofZ 2) (fsub (f (n' - 1)) (f 0)))).
Proof.
  intros Hn. unfold ext_odd_reflect. destruct (Z.eqb_spec n' 1); [lia|]. cbv zeta.
  rewrite Z.mod_add, Z.div_add, fofZ_add by lia. ring.
Qed.
Lemma odd_reflect_mirror0 n' (f : Z -> F) t : 2 <= n' ->
  ext_odd_reflect n' f (- t) = fsub (fmul (fofZ 2) (f 0)) (ext_odd_reflect n' f t).
Proof.
  intros Hn. unfold ext_odd_reflect. destruct (Z.eqb_spec n' 1); [lia|]. cbv zeta.
  destruct (divmod_get (2 * n' - 2) t) as [a [m [-> Hm]]]; [lia|].
  destruct (Z.eq_dec m 0).
  - subst m. replace (- ((2 * n' - 2) * a + 0)) with ((2 * n' - 2) * (- a) + 0) by lia.
    rewrite !mod_eq, !div_eq by lia.
    rewrite fofZ_opp. destruct (Z.ltb_spec 0 n'); [|lia]. simpl fofZ. ring.
  - replace (- ((2 * n' - 2) * a + m)) with ((2 * n' - 2) * (- a - 1) + (2 * n' - 2 - m)) by lia.
    rewrite !mod_eq, !div_eq by lia.
    rewrite fofZ_sub, fofZ_opp, fofZ_1.
    replace (2 * n' - 2 - (2 * n' - 2 - m)) with m by lia.
    destruct (Z.ltb_spec (2 * n' - 2 - m) n'), (Z.ltb_spec m n'); try lia.
    + replace m with (n' - 1) by lia. replace (2 * n' - 2 - (n' - 1)) with (n' - 1) by lia. simpl fofZ. ring.
    + ring.
    + ring.
Qed.
Lemma odd_reflect_mirror n' (f : Z -> F) q s : 2 <= n' ->
  ext_odd_reflect n' f (q * (n' - 1) - s) =
  fsub (fmul (fofZ 2) (ext_odd_reflect n' f (q * (n' - 1)))) (ext_odd_reflect n' f (q * (n' - 1) + s)).
Proof.
  intros Hn. destruct (Z.Even_or_Odd q) as [[r ->]|[r ->]].
  - replace (2 * r * (n' - 1) - s) with (- s + r * (2 * n' - 2)) by lia.
    replace (2 * r * (n' - 1) + s) with (s + r * (2 * n' - 2)) by lia.
    replace (2 * r * (n' - 1)) with (0 + r * (2 * n' - 2)) by lia.
    rewrite !odd_reflect_shift, odd_reflect_mirror0 by lia.
    rewrite (odd_reflect_core n' f 0) by lia. simpl fofZ. ring.
  - replace ((2 * r + 1) * (n' - 1) - s) with (n' - 1 - s + r * (2 * n' - 2)) by lia.
    replace ((2 * r + 1) * (n' - 1) + s) with (- (n' - 1 - s) + (r + 1) * (2 * n' - 2)) by lia.
    replace ((2 * r + 1) * (n' - 1)) with (- (n' - 1) + (r + 1) * (2 * n' - 2)) by lia.
    rewrite !odd_reflect_shift, !odd_reflect_mirror0 by lia.
    rewrite (odd_reflect_core n' f (n' - 1)) by lia. rewrite fofZ_add, fofZ_1. simpl fofZ. ring.
Qed.

Let Eor := Eof ext_odd_reflect x0 dim head n.
Lemma Eor_dinv : dinv dim Eor.
Proof. ctx. apply Eof_dinv; [apply odd_reflect_extl|lia]. Qed.

Lemma odd_reflect_before_ok fuel x curr : 2 <= n ->
  agree sh idx dim x0 Eor curr tail x -> curr <= Z.of_nat fuel -> 0 <= curr <= head ->
  (curr = 0 \/ exists q, curr = head - q * (n - 1)) ->
  exists y, odd_reflect_before fuel x idx dim (n - 1) curr = Ok y /\ agree sh idx dim x0 Eor 0 tail y.
Proof.
  intros Hn2. revert x curr. induction fuel as [|fuel IH]; intros x curr A Hf Hc Hq; simpl;
    (destruct (Z.ltb_spec 0 curr); [|exists x; split; auto; now replace 0 with curr by lia]); [lia|].
  ctx. destruct Hq as [|[q Hq]]; [lia|].
  set (chunk := Z.min curr (n - 1)). unfold modify_idx.
  destruct (agree_get sh idx dim W x0 Eor curr tail x (srng curr (curr + 1)) curr 1 Eor_dinv A) as [a [Ha Hfa]];
    try lia. { rs. }
  fin Ha.
  destruct (agree_get sh idx dim W x0 Eor curr tail x (srng (curr + 1) (curr + 1 + chunk)) (curr + 1) chunk Eor_dinv A) as [b [Hb Hfb]];
    try (unfold n in *; lia). { rs. }
  fin Hb.
  destruct (two_a_minus_b_ok _ _ _ _ _ Hfa Hfb) as [v [Hv Hl]]. fin Hv.
  destruct (set_before sh idx dim W x0 Eor curr tail x (srng (curr - chunk) curr) v chunk _ Eor_dinv A Hl) as [y [Hy Ay]]; try lia.
  { rs. }
  { intros j k Hj Hk. cbv beta. unfold Eor, Eof.
    pose proof (odd_reflect_mirror n (line x0 dim head j) (- q) (chunk - k) ltac:(lia)) as E.
    replace (curr - chunk + k - head) with (- q * (n - 1) - (chunk - k)) by lia.
    rewrite E. f_equal; [f_equal|]; f_equal; lia. }
  fin Hy. apply IH; auto; try lia.
  destruct (Z_le_gt_dec curr (n - 1)); [left; lia|right; exists (q + 1); lia].
Qed.

Lemma odd_reflect_after_ok fuel x curr : 2 <= n ->
  agree sh idx dim x0 Eor 0 curr x -> N - curr <= Z.of_nat fuel -> tail <= curr <= N ->
  (curr = N \/ exists q, curr = head + 1 + q * (n - 1)) ->
  exists y, odd_reflect_after fuel x idx dim (n - 1) curr = Ok y /\ agree sh idx dim x0 Eor 0 N y.
Proof.
  intros Hn2. revert x curr. induction fuel as [|fuel IH]; intros x curr A Hf Hc Hq; simpl;
    unfold dimlen; rewrite (proj1 A); fold N;
    (destruct (Z.ltb_spec curr N); [|exists x; split; auto; now replace N with curr by lia]); [lia|].
  ctx. destruct Hq as [|[q Hq]]; [lia|].
  set (chunk := Z.min (N - curr) (n - 1)). unfold modify_idx.
  destruct (agree_get sh idx dim W x0 Eor 0 curr x (srng (curr - 1) curr) (curr - 1) 1 Eor_dinv A) as [a [Ha Hfa]];
    try lia. { rs. }
  fin Ha.
  destruct (agree_get sh idx dim W x0 Eor 0 curr x (srng (curr - 1 - chunk) (curr - 1)) (curr - 1 - chunk) chunk Eor_dinv A) as [b [Hb Hfb]];
    try (unfold n in *; lia). { rs. }
  fin Hb.
  destruct (two_a_minus_b_ok _ _ _ _ _ Hfa Hfb) as [v [Hv Hl]]. fin Hv.
  destruct (set_after sh idx dim W x0 Eor 0 curr x (srng curr (curr + chunk)) v chunk _ Eor_dinv A Hl) as [y [Hy Ay]]; try lia.
  { rs. }
  { intros j k Hj Hk. cbv beta. unfold Eor, Eof.
    pose proof (odd_reflect_mirror n (line x0 dim head j) q (k + 1) ltac:(lia)) as E.
    replace (curr - 1 + 0 - head) with (q * (n - 1)) by lia.
    replace (curr - 1 - chunk + (chunk - 1 - k) - head) with (q * (n - 1) - (k + 1)) by lia. rewrite E.
    replace (curr + k - head) with (q * (n - 1) + (k + 1)) by lia. ring. }
  fin Hy. apply IH; auto; try lia.
  destruct (Z_le_gt_dec (N - curr) (n - 1)); [left; lia|right; exists (q + 1); lia].
Qed.

Lemma odd_reflect_pads fuel : N <= Z.of_nat fuel ->
  pads (odd_reflect_1d fuel) x0 idx dim head tail ext_odd_reflect.
Proof.
  intros Hfuel. ctx. unfold pads, odd_reflect_1d.
  rewrite (head_tail_ok _ _ _ _ _ W Hidx). cbn [bind]. fold n.
  destruct (Z.eqb_spec n 1).
  - change (pads replicate_1d x0 idx dim head tail ext_odd_reflect).
    eapply pads_ext; [exact P| |apply replicate_pads; apply P].
    intros f t. fold n. unfold ext_replicate, ext_odd_reflect. rewrite e. simpl. f_equal. lia.
  - assert (2 <= n) by (unfold n in *; lia).
    destruct (odd_reflect_before_ok fuel x0 head) as [y [Hy Ay]]; auto; try lia.
    + apply agree_start; auto. apply odd_reflect_core.
    + right. exists 0. lia.
    + fin Hy. apply odd_reflect_after_ok; auto; try lia. right. exists 1. unfold n. lia.
Qed.

(** smooth *)
Lemma tarange_down h : 0 <= h -> shp (@tarange F h 0 (-1)) = [h].
Proof.
  intros. unfold tarange. simpl shp. f_equal. rewrite Z.sub_0_r.
  assert (E : h / -1 = - h).
  { replace h with (- h * -1) at 1 by lia. now rewrite Z.div_mul by lia. }
  rewrite E. lia.
Qed.
Lemma tarange_up m : 0 <= m -> shp (@tarange F 1 (m + 1) 1) = [m].
Proof. intros. unfold tarange. cbn [shp]. f_equal. rewrite Z.div_1_r. lia. Qed.

Lemma smooth_pads : pads (smooth_1d false) x0 idx dim head tail ext_smooth.
Proof.
  ctx. unfold pads, smooth_1d, unit_axes, unit_prefix, modify_idx. rewrite (head_tail_ok _ _ _ _ _ W Hidx). cbn [bind]. fold n.
  destruct (Z.eqb_spec n 1).
  { change (pads replicate_1d x0 idx dim head tail ext_smooth).
    eapply pads_ext; [exact P| |apply replicate_pads; apply P].
    intros f t. fold n. unfold ext_replicate, ext_smooth. rewrite e. simpl. f_equal. lia. }
  pose proof (agree_start _ _ _ _ _ _ P smooth_core) as A.
  pose proof (Eof_dinv ext_smooth x0 dim head (tail - head) smooth_extl ltac:(lia)) as HE.
  fold n in A, HE. set (E := Eof ext_smooth x0 dim head n) in *. fold sh in A.
  assert (Hn : 2 <= n) by (unfold n in *; lia).
  unfold ndim. fold sh.
  match goal with |- exists y, (bind ?c _) = Ok y /\ _ =>
    assert (B : exists y, c = Ok y /\ agree sh idx dim x0 E 0 tail y) end.
  { destruct (Z.ltb_spec 0 head).
    - destruct (agree_get sh idx dim W x0 E head tail x0 (srng head (head + 1)) head 1 HE A) as [u [Hu Hfu]];
        try lia. { rs. }
      fin Hu.
      destruct (agree_get sh idx dim W x0 E head tail x0 (srng (head + 1) (head + 2)) (head + 1) 1 HE A) as [v [Hv Hfv]];
        try (unfold n in *; lia). { rewrite resolve_srng by (unfold n in *; fold N; lia). f_equal; lia. }
      fin Hv. pose proof (frep_one sh idx dim W u head _ Hfu) as Lu. pose proof (frep_one sh idx dim W v head _ Hfv) as Lv.
      destruct (lrep_map2 sh idx dim (@fsub F) _ _ _ _ _ Lv Lu) as [d [Hd Ld]]. fin Hd.
      pose proof (lrep_col sh idx dim W (@tarange F head 0 (-1)) head (tarange_down head Hhead)) as Lc.
      destruct (lrep_map2 sh idx dim (@fmul F) _ _ _ _ _ Lc Ld) as [m [Hm Lm]]. fin Hm.
      destruct (lrep_map2 sh idx dim (@fsub F) _ _ _ _ _ Lu Lm) as [w [Hw Lw]]. fin Hw.
      destruct (set_before sh idx dim W x0 E head tail x0 (sto head) w head _ HE A Lw) as [y [Hy Ay]]; try lia.
      { rs. }
      + intros j k Hj Hk. unfold E, Eof, ext_smooth. destruct (Z.eqb_spec n 1); [lia|].
        rewrite !(fun t => proj2 (Z.ltb_ge t 0)) by lia. cbn [tarange at_ nth].
        destruct (Z.ltb_spec (head - head + k - head) 0); [|lia].
        rewrite !(fun t m => proj2 (Z.ltb_lt t m)) by lia.
        replace (head + 0 - head) with 0 by lia. replace (head + 1 + 0 - head) with 1 by lia.
        replace (head - head + k - head) with (- (head + k * -1)) by lia. rewrite fofZ_opp. ring.
      + exists y. split; auto. now replace 0 with (head - head) by lia.
    - exists x0. split; auto. now replace 0 with head by lia. }
  destruct B as [y [Hy B]]. fin Hy. unfold dimlen. rewrite (proj1 B). fold N.
  destruct (Z.ltb_spec tail N).
  - destruct (agree_get sh idx dim W x0 E 0 tail y (srng (tail - 1) tail) (tail - 1) 1 HE B) as [u [Hu Hfu]];
      try lia. { rs. }
    fin Hu.
    destruct (agree_get sh idx dim W x0 E 0 tail y (srng (tail - 2) (tail - 1)) (tail - 2) 1 HE B) as [v [Hv Hfv]];
      try (unfold n in *; lia). { rewrite resolve_srng by (unfold n in *; fold N; lia). f_equal; lia. }
    fin Hv. pose proof (frep_one sh idx dim W u (N - tail) _ Hfu) as Lu. pose proof (frep_one sh idx dim W v (N - tail) _ Hfv) as Lv.
    destruct (lrep_map2 sh idx dim (@fsub F) _ _ _ _ _ Lu Lv) as [d [Hd Ld]]. fin Hd.
    pose proof (lrep_col sh idx dim W (@tarange F 1 (N - tail + 1) 1) (N - tail) (tarange_up (N - tail) ltac:(lia))) as Lc.
    destruct (lrep_map2 sh idx dim (@fmul F) _ _ _ _ _ Lc Ld) as [m [Hm Lm]]. fin Hm.
    destruct (lrep_map2 sh idx dim (@fadd F) _ _ _ _ _ Lu Lm) as [w [Hw Lw]]. fin Hw.
    destruct (set_after sh idx dim W x0 E 0 tail y (sfrom tail) w (N - tail) _ HE B Lw) as [z [Hz Az]]; try lia.
    { rs. }
    + intros j k Hj Hk. unfold E, Eof, ext_smooth. destruct (Z.eqb_spec n 1); [lia|].
      cbn [tarange at_ nth]. unfold n in *.
      rewrite !(fun t => proj2 (Z.ltb_ge t 0)) by lia.
      destruct (Z.ltb_spec (tail + k - head) (tail - head)); [lia|].
      rewrite !(fun t m => proj2 (Z.ltb_lt t m)) by lia.
      replace (tail - 1 + 0 - head) with (tail - head - 1) by lia.
      replace (tail - 2 + 0 - head) with (tail - head - 2) by lia.
      replace (tail + k - head - (tail - head - 1)) with (1 + k * 1) by lia. ring.
    + exists z. split; auto. now replace N with (tail + (N - tail)) by lia.
  - exists y. split; auto. now replace N with tail by lia.
Qed.

(** linear ramp *)
Lemma linspace_init s e m : 1 <= m ->
  exists v, tget (@tlinspace F s e (m + 1)) [mkS None (Some (-1)) 1] = Ok v /\ shp v = [m] /\
    forall k, 0 <= k < m -> at_ v [k] = fadd s (fmul (fofZ k) (fdiv (fsub e s) (fofZ m))).
Proof.
  intros Hm. unfold tget, tlinspace. simpl length. cbn [Nat.eqb shp map2].
  assert (Er' : resolve (m + 1) (mkS None (Some (-1)) 1) = mkR 0 m 1).
  { unfold resolve, clampi; cbn [s_lo s_hi s_st]. rewrite Z.div_1_r. destruct (Z.ltb_spec (-1) 0); [|lia]. f_equal. lia. }
  rewrite Er'. eexists; split; [reflexivity|]. split; [reflexivity|].
  intros k Hk. cbn [at_ map2 nth]. unfold rpos; cbn [r_lo r_st]. rewrite Z.mul_1_r, Z.add_0_l. now replace (m + 1 - 1) with m by lia.
Qed.
Lemma linspace_tail s e m : 1 <= m ->
  exists v, tget (@tlinspace F s e (m + 1)) [mkS (Some 1) None 1] = Ok v /\ shp v = [m] /\
    forall k, 0 <= k < m -> at_ v [k] = fadd s (fmul (fofZ (1 + k)) (fdiv (fsub e s) (fofZ m))).
Proof.
  intros Hm. unfold tget, tlinspace. simpl length. cbn [Nat.eqb shp map2].
  assert (Er' : resolve (m + 1) (mkS (Some 1) None 1) = mkR 1 m 1).
  { unfold resolve, clampi; cbn [s_lo s_hi s_st]. rewrite Z.div_1_r. destruct (Z.ltb_spec 1 0); [lia|]. f_equal; lia. }
  rewrite Er'. eexists; split; [reflexivity|]. split; [reflexivity|].
  intros k Hk. cbn [at_ map2 nth]. unfold rpos; cbn [r_lo r_st].
  rewrite Z.mul_1_r. now replace (m + 1 - 1) with m by lia.
Qed.

Lemma linear_ramp_pads b a :
  pads (fun x idx dim => linear_ramp_1d false x idx dim b a) x0 idx dim head tail
       (ext_linear_ramp head (N - tail) b a).
Proof.
  ctx. unfold pads, linear_ramp_1d, unit_axes, unit_prefix, modify_idx. rewrite (head_tail_ok _ _ _ _ _ W Hidx). cbn [bind]. fold n.
  set (ee := ext_linear_ramp head (N - tail) b a).
  pose proof (agree_start _ _ _ _ _ _ P (linear_ramp_core head (N - tail) b a)) as A.
  pose proof (Eof_dinv ee x0 dim head (tail - head) (linear_ramp_extl _ _ _ _) ltac:(lia)) as HE.
  fold n ee in A, HE. set (E := Eof ee x0 dim head n) in *. fold sh in A.
  unfold ndim. fold sh.
  match goal with |- exists y, (bind ?c _) = Ok y /\ _ =>
    assert (B : exists y, c = Ok y /\ agree sh idx dim x0 E 0 tail y) end.
  { destruct (Z.ltb_spec 0 head).
    - destruct (linspace_init f0 f1 head ltac:(lia)) as [l [Hl [Sl Al]]]. rewrite Hl. cbn [bind].
      destruct (agree_get sh idx dim W x0 E head tail x0 (srng head (head + 1)) head 1 HE A) as [u [Hu Hfu]];
        try lia. { rs. }
      fin Hu. pose proof (frep_one sh idx dim W u head _ Hfu) as Lu.
      apply (lrep_map sh idx dim (fun e => fsub e b)) in Lu.
      pose proof (lrep_col sh idx dim W l head Sl) as Lc.
      destruct (lrep_map2 sh idx dim (@fmul F) _ _ _ _ _ Lc Lu) as [m [Hm Lm]]. fin Hm.
      apply (lrep_map sh idx dim (fadd b)) in Lm.
      destruct (set_before sh idx dim W x0 E head tail x0 (sto head) _ head _ HE A Lm) as [y [Hy Ay]]; try lia.
      { rs. }
      + intros j k Hj Hk. rewrite Al by lia. unfold E, Eof, ee, ext_linear_ramp.
        destruct (Z.ltb_spec (head + 0 - head) 0); [lia|].
        destruct (Z.ltb_spec (head + 0 - head) n); [|lia].
        destruct (Z.ltb_spec (head - head + k - head) 0); [|lia].
        replace (head + 0 - head) with 0 by lia.
        replace (- (head - head + k - head)) with (head - k) by lia. rewrite fofZ_sub.
        field. apply fofZ_neq0. lia.
      + exists y. split; auto. now replace 0 with (head - head) by lia.
    - exists x0. split; auto. now replace 0 with head by lia. }
  destruct B as [y [Hy B]]. fin Hy. unfold dimlen. rewrite (proj1 B). fold N.
  destruct (Z.ltb_spec tail N).
  - destruct (linspace_tail f1 f0 (N - tail) ltac:(lia)) as [l [Hl [Sl Al]]]. rewrite Hl. cbn [bind].
    destruct (agree_get sh idx dim W x0 E 0 tail y (srng (tail - 1) tail) (tail - 1) 1 HE B) as [u [Hu Hfu]];
      try lia. { rs. }
    fin Hu. pose proof (frep_one sh idx dim W u (N - tail) _ Hfu) as Lu.
    apply (lrep_map sh idx dim (fun e => fsub a e)) in Lu.
    pose proof (lrep_col sh idx dim W l (N - tail) Sl) as Lc.
    destruct (lrep_map2 sh idx dim (@fmul F) _ _ _ _ _ Lc Lu) as [m [Hm Lm]]. fin Hm.
    apply (lrep_map sh idx dim (fun e => fsub a e)) in Lm.
    destruct (set_after sh idx dim W x0 E 0 tail y (sfrom tail) _ (N - tail) _ HE B Lm) as [z [Hz Az]]; try lia.
    { rs. }
    + intros j k Hj Hk. rewrite Al by lia. unfold E, Eof, ee, ext_linear_ramp. unfold n in *.
      destruct (Z.ltb_spec (tail - 1 + 0 - head) 0); [lia|].
      destruct (Z.ltb_spec (tail - 1 + 0 - head) (tail - head)); [|lia].
      destruct (Z.ltb_spec (tail + k - head) 0); [lia|].
      destruct (Z.ltb_spec (tail + k - head) (tail - head)); [lia|].
      replace (tail - 1 + 0 - head) with (tail - head - 1) by lia.
      replace (tail + k - head - (tail - head - 1)) with (1 + k) by lia.
      field. apply fofZ_neq0. lia.
    + exists z. split; auto. now replace N with (tail + (N - tail)) by lia.
  - exists y. split; auto. now replace N with tail by lia.
Qed.

(** statistics *)
Lemma tstat_frep st v m (G : list Z -> Z -> F) : 1 <= m -> frep sh idx dim v m G ->
  exists w, tstat st v dim = Ok w /\
    frep sh idx dim w 1 (fun j _ => @stat_fun F st (map (G j) (zrange m))).
Proof.
  intros Hm [H1 [H2 H3]]. pose proof (wfi_dim _ _ _ W) as Hd.
  pose proof (lens_length sh idx dim W) as Ll.
  unfold tstat, dimlen. rewrite H2, nth_upd_eq by (rewrite Ll; auto).
  destruct (Z.leb_spec m 0); [lia|]. eexists; split; [reflexivity|]. split; [|split].
  - intros j k c. f_equal. apply map_ext. intros. apply H1.
  - simpl. now rewrite upd_upd.
  - intros i V. simpl. f_equal. apply map_ext_in. intros k Hk. apply In_zrange in Hk.
    pose proof (valid_length _ _ V) as L. rewrite upd_length, Ll in L.
    rewrite H3.
    + rewrite map2_upd_r with (da := dR), H1. f_equal. apply nth_upd_eq. rewrite L; auto.
    + rewrite <- (upd_upd dim m 1). apply valid_upd; auto.
Qed.

Lemma agree_set_inside E lo hi x sl v a m G : dinv dim E -> agree sh idx dim x0 E lo hi x ->
  lrep sh idx dim v m G -> resolve N sl = mkR a m 1 -> 0 <= m -> 0 <= lo <= a -> a + m <= hi -> hi <= N ->
  (forall j k, online sh idx dim j -> 0 <= k < m -> G j k = E j (a + k)) ->
  exists y, tset x (upd dim sl idx) v = Ok y /\ agree sh idx dim x0 E lo hi y.
Proof.
  intros HE [Hs Ha] Hl Hr H1 H2 H3 H4 HG.
  destruct (tset_lrep sh idx dim W x sl v a m G) as [y [Hy [Hys Hya]]]; auto; try lia.
  exists y. split; auto. split; auto. intros j V. rewrite Hya by auto.
  destruct (slabb sh idx dim j) eqn:S; simpl.
  - destruct (Z.leb_spec a (nth dim j 0)); simpl.
    + destruct (Z.ltb_spec (nth dim j 0) (a + m)).
      * destruct (Z.leb_spec lo (nth dim j 0)); [|lia]. destruct (Z.ltb_spec (nth dim j 0) hi); [|lia].
        rewrite HG; [simpl; f_equal; lia| apply online_valid; auto; apply W |lia].
      * rewrite Ha, S by auto. reflexivity.
    + rewrite Ha, S by auto. reflexivity.
  - rewrite Ha, S by auto. reflexivity.
Qed.

Lemma stat_pads st wb wa :
  pads (fun x idx dim => stat_1d x idx dim wb wa st) x0 idx dim head tail
       (ext_stat (@stat_fun F st) wb wa).
Proof.
  ctx. unfold pads, stat_1d, modify_idx. rewrite (head_tail_ok _ _ _ _ _ W Hidx). cbn [bind]. fold n.
  set (ee := ext_stat (stat_fun st) wb wa).
  pose proof (agree_start _ _ _ _ _ _ P (stat_core (@stat_fun F st) wb wa)) as A.
  pose proof (Eof_dinv ee x0 dim head (tail - head) (stat_extl _ _ _) ltac:(lia)) as HE.
  fold n ee in A, HE. set (E := Eof ee x0 dim head n) in *. fold sh in A.
  assert (Hn : 1 <= n) by (unfold n; lia).
  (* value used before / after *)
  assert (Vb : forall lo hi x c, agree sh idx dim x0 E lo hi x -> 0 <= lo <= head -> tail <= hi <= N ->
     c = clip_window n wb ->
     exists s, bind (tget x (upd dim (srng head (head + c)) idx)) (fun v => tstat st v dim) = Ok s /\
       lrep sh idx dim s head (fun j k => E j k)).
  { intros lo hi x c Ax Hlo Hhi ->. pose proof (clip_range n wb Hn) as Hc.
    destruct (agree_get sh idx dim W x0 E lo hi x (srng head (head + clip_window n wb)) head (clip_window n wb) HE Ax) as [v [Hv Hf]];
      try (unfold n in *; lia). { rewrite resolve_srng by (unfold n in *; fold N; lia). f_equal; lia. }
    fin Hv. destruct (tstat_frep st v _ _ (proj1 Hc) Hf) as [s [Hs Hfs]]. exists s. split; auto.
    apply (frep_one sh idx dim W s head) in Hfs. eapply lrep_ext; [exact W|exact Hfs| |].
    - intros j k c. apply HE.
    - intros j k Hj Hk. cbv beta. unfold E, Eof, ee. unfold ext_stat at 2.
      destruct (Z.ltb_spec (k - head) 0); [|lia].
      f_equal. apply map_ext_zrange. intros u Hu. rewrite stat_core by lia. f_equal. lia. }
  assert (Va : forall lo hi x c, agree sh idx dim x0 E lo hi x -> 0 <= lo <= head -> tail <= hi <= N ->
     c = clip_window n wa ->
     exists s, bind (tget x (upd dim (srng (tail - c) tail) idx)) (fun v => tstat st v dim) = Ok s /\
       lrep sh idx dim s (N - tail) (fun j k => E j (tail + k))).
  { intros lo hi x c Ax Hlo Hhi ->. pose proof (clip_range n wa Hn) as Hc.
    destruct (agree_get sh idx dim W x0 E lo hi x (srng (tail - clip_window n wa) tail) (tail - clip_window n wa) (clip_window n wa) HE Ax) as [v [Hv Hf]];
      try (unfold n in *; lia). { rewrite resolve_srng by (unfold n in *; fold N; lia). f_equal; lia. }
    fin Hv. destruct (tstat_frep st v _ _ (proj1 Hc) Hf) as [s [Hs Hfs]]. exists s. split; auto.
    apply (frep_one sh idx dim W s (N - tail)) in Hfs. eapply lrep_ext; [exact W|exact Hfs| |].
    - intros j k c. apply HE.
    - intros j k Hj Hk. cbv beta. unfold E, Eof, ee. unfold ext_stat at 2.
      destruct (Z.ltb_spec (tail + k - head) 0); [lia|].
      destruct (Z.ltb_spec (tail + k - head) n); [unfold n in *; lia|]. cbv zeta.
      f_equal. apply map_ext_zrange. intros u Hu. rewrite stat_core by (unfold n in *; lia).
      f_equal. unfold n in *. lia. }
  (* first block: shared result *)
  match goal with |- exists y, (bind ?c _) = Ok y /\ _ =>
    assert (B : exists y lo hi, c = Ok y /\ agree sh idx dim x0 E lo hi y /\
      ((lo = head /\ hi = tail) \/ (lo = 0 /\ hi = N))) end.
  { destruct wb as [wb'|]; [exists x0, head, tail; auto|].
    destruct wa as [wa'|]; [exists x0, head, tail; auto|].
    unfold dimlen. fold sh. fold N.
    destruct (Z.ltb_spec 0 head); [|exists x0, head, tail; auto].
    destruct (Z.ltb_spec tail N); [|exists x0, head, tail; auto]. simpl andb. cbv iota.
    destruct (Vb head tail x0 n A) as [s [Hs Ls]]; try lia; auto.
    destruct (Va head tail x0 n A) as [s' [Hs' Ls']]; try lia; auto.
    replace (head + n) with tail in Hs by (unfold n; lia).
    replace (tail - n) with head in Hs' by (unfold n; lia).
    destruct (tget x0 (upd dim (srng head tail) idx)) as [v|] eqn:Hv; [|discriminate].
    cbn [bind] in *. rewrite Hs in *. injection Hs' as <-. cbn [bind].
    destruct (set_before sh idx dim W x0 E head tail x0 (sto head) s head _ HE A Ls) as [y [Hy Ay]]; try lia.
    { rs. } { intros; f_equal; lia. }
    rewrite Hy. cbn [bind].
    destruct (set_after sh idx dim W x0 E (head - head) tail y (sfrom tail) s (N - tail) _ HE Ay Ls') as [z [Hz Az]]; try lia.
    { rs. } { intros; f_equal; lia. }
    exists z, (head - head), (tail + (N - tail)). split; auto. split; auto. right. lia. }
  destruct B as [y [lo [hi [Hy [B Hlh]]]]]. fin Hy.
  match goal with |- exists y, (bind ?c _) = Ok y /\ _ =>
    assert (C : exists y hi, c = Ok y /\ agree sh idx dim x0 E 0 hi y /\ (hi = tail \/ hi = N)) end.
  { destruct (Z.ltb_spec 0 head).
    - assert (Hs : exists s, (match wb with
               | None => v <- tget y (upd dim (srng head tail) idx) ;; tstat st v dim
               | Some b =>
                 let b := Z.min n (Z.max 1 b) in
                 v <- tget y (upd dim (srng head (head + b)) idx) ;; tstat st v dim
               end) = Ok s /\ lrep sh idx dim s head (fun j k => E j k)).
      { destruct wb as [w|]; cbv zeta.
        - apply (Vb lo hi y _ B); try lia. reflexivity.
        - replace (upd dim (srng head tail) idx) with (upd dim (srng head (head + n)) idx)
            by (f_equal; f_equal; unfold n; lia).
          apply (Vb lo hi y _ B); try lia. reflexivity. }
      destruct Hs as [s [Hs Ls]]. cbv zeta in Hs. cbv zeta. fin Hs.
      destruct Hlh as [[-> ->]|[-> ->]].
      + destruct (set_before sh idx dim W x0 E head tail y (sto head) s head _ HE B Ls) as [z [Hz Az]]; try lia.
        { rs. } { intros; f_equal; lia. }
        exists z, tail. split; auto. split; auto. now replace 0 with (head - head) by lia.
      + destruct (agree_set_inside E 0 N y (sto head) s 0 head _ HE B Ls) as [z [Hz Az]]; try lia.
        { rs. } { intros; f_equal; lia. }
        exists z, N. auto.
    - assert (lo = 0) by lia. subst lo. exists y, hi. split; auto. split; auto. lia. }
  destruct C as [z [hi' [Hz [C Hhi]]]]. fin Hz. unfold dimlen. rewrite (proj1 C). fold N.
  destruct (Z.ltb_spec tail N).
  - assert (Hs : exists s, (match wa with
          | None => v <- tget z (upd dim (srng head tail) idx) ;; tstat st v dim
          | Some a =>
            let a := Z.min n (Z.max 1 a) in
            v <- tget z (upd dim (srng (tail - a) tail) idx) ;; tstat st v dim
          end) = Ok s /\ lrep sh idx dim s (N - tail) (fun j k => E j (tail + k))).
    { destruct wa as [w|]; cbv zeta.
      - apply (Va 0 hi' z _ C); try lia. reflexivity.
      - replace (upd dim (srng head tail) idx) with (upd dim (srng (tail - n) tail) idx)
          by (f_equal; f_equal; unfold n; lia).
        apply (Va 0 hi' z _ C); try lia. reflexivity. }
    destruct Hs as [s [Hs Ls]]. cbv zeta in Hs. cbv zeta. fin Hs.
    destruct Hhi as [->| ->].
    + destruct (set_after sh idx dim W x0 E 0 tail z (sfrom tail) s (N - tail) _ HE C Ls) as [u [Hu Au]]; try lia.
      { rs. } { intros; f_equal; lia. }
      exists u. split; auto. fold sh N. now replace (tail + (N - tail)) with N in Au by lia.
    + apply (agree_set_inside E 0 N z (sfrom tail) s tail (N - tail) _ HE C Ls); try lia.
      { rs. } { intros; f_equal; lia. }
  - exists z. split; auto. fold sh N. assert (hi' = N) by lia. subst hi'. exact C.
Qed.
End Loops.

(** constant (also for an empty region) *)
Lemma constant_pads b a x idx dim head tail : wfi (shp x) idx dim ->
  nth dim idx sfull = srng head tail -> 0 <= head -> head <= tail -> tail <= nth dim (shp x) 0 ->
  pads (fun x idx dim => constant_1d x idx dim b a) x idx dim head tail (ext_constant b a).
Proof.
  intros W Hidx Hhead Hht Htail. set (sh := shp x) in *. set (N := nth dim sh 0) in *.
  set (n := tail - head) in *. set (E := Eof (ext_constant b a) x dim head n).
  assert (A : agree sh idx dim x E head tail x).
  { apply agree_init; auto. intros j V S Hj. unfold E, Eof. rewrite constant_core by (unfold n; lia).
    unfold line. f_equal. replace (head + (nth dim j 0 - head)) with (nth dim j 0) by lia.
    now rewrite upd_nth. }
  assert (HE : dinv dim E).
  { intros j k c. unfold E, Eof, ext_constant. repeat zcase; auto. apply line_dinv_at. }
  unfold pads, constant_1d, modify_idx. rewrite (head_tail_ok _ _ _ _ _ W Hidx). cbn [bind].
  assert (B : exists y, (if 0 <? head then tset x (upd dim (sto head) idx) (tscalar b)
      else Ok x) = Ok y /\ agree sh idx dim x E 0 tail y).
  { destruct (Z.ltb_spec 0 head).
    - destruct (set_before sh idx dim W x E head tail x (sto head) (tscalar b) head _ HE A (lrep_const sh idx dim b head))
        as [y [Hy Ay]]; try lia. { sl. }
      + intros j k Hj Hk. unfold E, Eof, ext_constant. destruct (Z.ltb_spec (head - head + k - head) 0); [auto|lia].
      + exists y. split; auto. now replace 0 with (head - head) by lia.
    - exists x. split; auto. now replace 0 with head by lia. }
  destruct B as [y [Hy B]]. fin Hy. unfold dimlen. rewrite (proj1 B). fold sh. fold N.
  destruct (Z.ltb_spec tail N).
  - destruct (set_after sh idx dim W x E 0 tail y (sfrom tail) (tscalar a) (N - tail) _ HE B (lrep_const sh idx dim a (N - tail)))
        as [z [Hz Az]]; try lia. { sl. }
    + intros j k Hj Hk. unfold E, Eof, ext_constant.
      destruct (Z.ltb_spec (tail + k - head) 0); [lia|]. destruct (Z.ltb_spec (tail + k - head) n); [unfold n in *; lia|auto].
    + exists z. split; auto. now replace N with (tail + (N - tail)) by lia.
  - exists y. split; auto. now replace N with tail by lia.
Qed.

(** periodize *)
Lemma periodize_pads fuel x idx dim head tail : pre x idx dim head tail ->
  tail + (tail - head) mod 2 <= nth dim (shp x) 0 -> nth dim (shp x) 0 <= Z.of_nat fuel ->
  pads (periodize_1d fuel) x idx dim head tail ext_periodize.
Proof.
  intros P Hpar Hfuel. pose proof P as [W Hidx Hhead Hht Htail].
  unfold pads, periodize_1d. rewrite (head_tail_ok _ _ _ _ _ W Hidx). cbn [bind].
  set (n := tail - head) in *. destruct (Z.eqb_spec (n mod 2) 0) as [E0|E0].
  - change (pads (circular_1d fuel) x idx dim head tail ext_periodize).
    destruct (circular_pads x idx dim head tail P fuel Hfuel) as [y [Hy Ay]].
    exists y. split; auto. eapply agree_ext; [exact W|exact Ay|]. intros j k Hj Hk.
    unfold Eof. fold n. unfold ext_periodize. rewrite E0, Z.add_0_r. apply circular_extl; [unfold n; lia|].
    intros u Hu. zcase; auto; lia.
  - assert (E1 : n mod 2 = 1) by (destruct (mod2_cases n); lia). rewrite E1 in Hpar.
    pose proof (agree_start _ _ _ _ _ _ P periodize_core) as A. fold n in A.
    pose proof (Eof_dinv ext_periodize x dim head n periodize_extl ltac:(unfold n; lia)) as HE.
    set (E := Eof ext_periodize x dim head n) in *.
    unfold modify_idx.
    destruct (agree_get (shp x) idx dim W x E head tail x (srng (tail - 1) tail) (tail - 1) 1 HE A) as [v [Hv Hf]];
      try lia. { sl. }
    fin Hv. apply (frep_one _ _ _ W v 1) in Hf.
    destruct (set_after (shp x) idx dim W x E head tail x (srng tail (tail + 1)) v 1 _ HE A Hf) as [y [Hy Ay]]; try lia.
    { sl. }
    { intros j k Hj Hk. cbv beta. unfold E, Eof. rewrite periodize_core by (unfold n; lia).
      unfold ext_periodize, ext_circular. rewrite E1.
      rewrite Z.mod_small by (unfold n; lia).
      destruct (Z.ltb_spec (tail + k - head) n); [unfold n in *; lia|]. f_equal. unfold n. lia. }
    fin Hy.
    assert (P' : pre y (upd dim (srng head (tail + 1)) idx) dim head (tail + 1)).
    { split; try lia; rewrite ?(proj1 Ay); auto.
      - apply wfi_upd; auto.
      - rewrite nth_upd_eq; auto. rewrite (wfi_len _ _ _ W). apply W. }
    destruct (circular_pads y _ dim head (tail + 1) P' fuel) as [z [Hz Az]]; [rewrite (proj1 Ay); auto|].
    exists z. split; [exact Hz|]. rewrite (proj1 Ay) in Az. destruct Az as [Sz Az]. split; auto.
    intros j V. rewrite Az by auto.
    assert (Es : slabb (shp x) (upd dim (srng head (tail + 1)) idx) dim j = slabb (shp x) idx dim j).
    { unfold slabb. now rewrite upd_upd. }
    rewrite Es. destruct (slabb (shp x) idx dim j) eqn:S; simpl.
    + destruct (Z.leb_spec 0 (nth dim j 0)), (Z.ltb_spec (nth dim j 0) (nth dim (shp x) 0)); simpl;
        try (pose proof (valid_nth _ _ dim V (wfi_dim _ _ _ W)); lia).
      unfold E, Eof, ext_periodize. replace (tail + 1 - head) with (n + n mod 2) by (unfold n in *; lia).
      apply circular_extl; [lia|]. intros u Hu. unfold line at 1.
      assert (V' : valid (shp x) (upd dim (head + u) j)) by (apply valid_upd_in; auto; unfold n in *; lia).
      rewrite (proj2 Ay) by auto.
      rewrite (slabb_upd _ _ _ W) by (auto; unfold n in *; lia).
      pose proof (valid_length _ _ V) as L.
      rewrite nth_upd_eq by (rewrite L; apply W).
      destruct (Z.leb_spec head (head + u)), (Z.ltb_spec (head + u) (tail + 1)); simpl; try (unfold n in *; lia).
      unfold E, Eof. replace (head + u - head) with u by lia.
      rewrite (periodize_extl n _ (line x dim head j)).
      2: unfold n; lia. 2: intros; apply line_dinv_at.
      unfold ext_periodize, ext_circular. rewrite Z.mod_small by lia. reflexivity.
    + rewrite (proj2 Ay) by auto. now rewrite S.
Qed.
End P.
