(** C93-C96: padding, pooling and mirror images; filters in closed form and cyclic shifts.

    Vocabulary (PadFlip.v, PoolFlip.v; PropsPad.v, PropsPadAlg.v, PropsPool.v):
    - [flipped a x x']: x' is x read backwards along axis a;
    - [mirror_padder a p p' al]: p' pads the axes al as p does, with the parameters for before and
      after exchanged on axis a ([swap_par]: widths, constant values, end values, stat lengths);
    - [reversed_on a al kers kers']: kers' are the kernels kers, that of axis a backwards;
    - [mirror_values a al p p']: p' has the modes of p for the axes al and its constant values, end
      values and stat lengths, exchanged on axis a;
    - [copying m]: circular, symmetric, reflect or replicate; [spot m n t]: the coordinate that mode m
      copies from at coordinate t of an axis of length n; [look al ms ks sh j o]: j with the coordinate
      on axis a_r replaced by spot m_r n (j + o_r - k_r/2) (FilterCopy.v, EdgeHV.v);
    - [shifted a s x x']: x' at i is x at i with i_a replaced by (i_a + s) mod n;
    - [on_axes], [built], [same_call], [is_ceil_div]: as in PropsPool.v. *)
From Coq Require Import Reals QArith.
From Verif Require Import ExampleUtil IndexLemmas GaussFlip FilterCopy.
Open Scope Z_scope.

(** ** C93: padding the mirrored image with the mirrored parameters gives the mirrored result. *)
Theorem C93_mirror : forall (F : ofield) fuel junk junk' (p p' : padder F) a (x x' : tensor F) ax al,
  pad_call fuel p x ax al -> all_fine F p x al ->
  (forall d q, axis_par p (last_axes p al) d = Some q -> is_empty_mode F (ap_mode q) = false) ->
  (forall q, axis_par p (last_axes p al) a = Some q -> ap_mode q = MPeriodize -> nth a (shp x) 0 mod 2 = 0) ->
  (a < ndim x)%nat -> mirror_padder a p p' al -> flipped a x x' ->
  exists y y', padder_forward fuel junk p x ax = Ok y /\ padder_forward fuel junk' p' x' ax = Ok y' /\ flipped a y y'.
Proof. exact padding_mirror. Qed.
Print Assumptions C93_mirror.

Definition r23 := ofz [2; 3] [4; 2; 1; 40; 20; 10].
(** pad2 with before and after exchanged on the second axis. *)
Definition pad2r (w1 w2 : Z * Z) (m1 m2 : mode QcF) : padder QcF :=
  mkPadder (NList [w1; (snd w2, fst w2)]) (NList [m1; m2]) (NList [(qz 7, qz 8); (qz 8, qz 7)])
    (NList [(qz 0, qz 10); (qz 10, qz 0)]) (NList [(Some 2, None); (None, Some 2)]) 2.
Lemma pad2_mirror w1 w2 m1 m2 : mirror_padder 1 (pad2 w1 w2 m1 m2) (pad2r w1 w2 m1 m2) [0; 1]%nat.
Proof.
  split; [reflexivity|]. change (last_axes (pad2 w1 w2 m1 m2) [0; 1]%nat) with [0; 1]%nat. destruct w1, w2. intros d q Hq.
  destruct d as [|[|d]]; cbn in Hq; [injection Hq as <-; reflexivity|injection Hq as <-; reflexivity|discriminate].
Qed.
Lemma r23_flipped : flipped 1 x23 r23.
Proof.
  split; [reflexivity|]. intros i V. apply valid2 in V as [k [l [-> [Hk Hl]]]].
  assert (k = 0 \/ k = 1) as [->| ->] by lia; (assert (l = 0 \/ l = 1 \/ l = 2) as [->|[->| ->]] by lia); vm_compute; reflexivity.
Qed.
Example C93_example :
  pad_call 10 (pad2 (1, 0) (2, 1) MReplicate MConstant) x23 AxNone [0; 1]%nat /\
  all_fine QcF (pad2 (1, 0) (2, 1) MReplicate MConstant) x23 [0; 1]%nat /\
  mirror_padder 1 (pad2 (1, 0) (2, 1) MReplicate MConstant) (pad2r (1, 0) (2, 1) MReplicate MConstant) [0; 1]%nat /\
  flipped 1 x23 r23 /\
  show (padder_forward 10 garbage (pad2 (1, 0) (2, 1) MReplicate MConstant) x23 AxNone) =
    Some ([3; 6], zq [7; 7; 1; 2; 4; 8; 7; 7; 1; 2; 4; 8; 7; 7; 10; 20; 40; 8]) /\
  show (padder_forward 10 garbage (pad2r (1, 0) (2, 1) MReplicate MConstant) r23 AxNone) =
    Some ([3; 6], zq [8; 4; 2; 1; 7; 7; 8; 4; 2; 1; 7; 7; 8; 40; 20; 10; 7; 7]).
Proof.
  split; [ex_call|]. split; [ex_fine|]. split; [apply pad2_mirror|]. split; [apply r23_flipped|]. split; vm_compute; reflexivity.
Qed.
(** Mode periodize is not symmetric for odd lengths: it repeats the last sample, not the first. *)
Definition x3 := ofz [3] [1; 2; 4].
Definition r3 := ofz [3] [4; 2; 1].
Lemma r3_flipped : flipped 0 x3 r3.
Proof. split; [reflexivity|]. intros i V. apply valid1 in V as [k [-> Hk]]. assert (k = 0 \/ k = 1 \/ k = 2) as [->|[->| ->]] by lia; vm_compute; reflexivity. Qed.
Definition sym (w : Z * Z) (m : mode QcF) : padder QcF := mkPadder (NItem w) (NItem m) (NItem (qz 0, qz 0)) (NItem (qz 5, qz 5)) (NItem (None, None)) 0.
Lemma show_nth y sh l k : show (Ok y) = Some (sh, l) -> (k < length (indices sh))%nat -> shp y = sh /\ Qcanon.this (at_ y (nth k (indices sh) [])) = nth k l 0%Q.
Proof.
  cbn [show]. intros H Hk. assert (E1 : shp y = sh) by congruence. split; auto. rewrite E1 in H.
  assert (E2 : map (fun i => Qcanon.this (at_ y i)) (indices sh) = l) by congruence. subst l.
  symmetry. rewrite (nth_indep _ 0%Q (Qcanon.this (at_ y []))) by (now rewrite map_length). apply (map_nth (fun i => Qcanon.this (at_ y i))).
Qed.
(** Two shown 1-d results that are not each other's mirror image. *)
Lemma not_flipped n (r r' : res (tensor QcF)) l l' k : show r = Some ([n], l) -> show r' = Some ([n], l') -> 0 <= k < n ->
  nth (Z.to_nat k) l' 0%Q <> nth (Z.to_nat (n - 1 - k)) l 0%Q -> exists y y', r = Ok y /\ r' = Ok y' /\ ~ flipped 0 y y'.
Proof.
  intros H H' Hk Hne. destruct r as [y|]; [|discriminate]. destruct r' as [y'|]; [|discriminate]. exists y, y'. split; auto. split; auto. intros [E1 E2].
  assert (I : forall t, 0 <= t < n -> nth (Z.to_nat t) (indices [n]) [] = [t] /\ (Z.to_nat t < length (indices [n]))%nat).
  { intros t Ht. cbn [indices]. rewrite flat_map_concat_map. cbn [map]. 
    assert (E : concat (map (fun z => [[z]]) (zrange n)) = map (fun z => [z]) (zrange n)) by (induction (zrange n) as [|b bs IH]; cbn; congruence).
    rewrite E, map_length, zrange_length. split; [|lia]. rewrite (nth_indep _ [] [0]) by (rewrite map_length, zrange_length; lia).
    rewrite (map_nth (fun z => [z])), nth_zrange by lia. f_equal. lia. }
  destruct (I k Hk) as [I1 I2]. destruct (I (n - 1 - k) ltac:(lia)) as [J1 J2].
  destruct (show_nth y _ _ _ H J2) as [S1 V1]. destruct (show_nth y' _ _ _ H' I2) as [S2 V2]. rewrite I1 in V2. rewrite J1 in V1.
  apply Hne. rewrite <- V1, <- V2, E2 by (rewrite S1; repeat constructor; lia). rewrite S1. reflexivity.
Qed.
Theorem C93_periodize_differs : exists (p : padder QcF) x x' y y', pad_call 9 p x (AxInt 0) [0%nat] /\ all_fine QcF p x [0%nat] /\
  flipped 0 x x' /\ mirror_padder 0 p p [0%nat] /\
  padder_forward 9 garbage p x (AxInt 0) = Ok y /\ padder_forward 9 garbage p x' (AxInt 0) = Ok y' /\ ~ flipped 0 y y'.
Proof.
  exists (sym (1, 1) MPeriodize), x3, r3.
  destruct (not_flipped 6 (padder_forward 9 garbage (sym (1, 1) MPeriodize) x3 (AxInt 0)) (padder_forward 9 garbage (sym (1, 1) MPeriodize) r3 (AxInt 0))
    (zq [4; 1; 2; 4; 4; 1]) (zq [1; 4; 2; 1; 1; 4]) 2) as [y [y' E]]; [vm_compute; reflexivity|vm_compute; reflexivity|lia|discriminate|].
  exists y, y'. split; [ex_call|]. split.
  { intros d [<-|[]]. eexists. split; [reflexivity|]. split; [cbn; lia|]. split; [cbn; lia|]. right. right. split; [left; cbn; lia|]. eexists. reflexivity. }
  split; [apply r3_flipped|]. split; [|exact E].
  split; [reflexivity|]. intros d q Hq. destruct d as [|d]; cbn in Hq; [injection Hq as <-; reflexivity|discriminate].
Qed.
Print Assumptions C93_periodize_differs.

(** ** C94: pooling the mirrored image with the mirrored kernels gives the mirrored result, if the
    windows fill the axis exactly; with a same padder, if the padding is the same on both sides. *)
Theorem C94_valid : forall (F : ofield) fuel junk junk' (m m' : pool F) a (x x' : tensor F) ax al kers kers' sts, on_axes x ax al ->
  built (length al) kers sts None m -> built (length al) kers' sts None m' ->
  (forall r, (r < length al)%nat -> klen (nth r kers []) <= nth (nth r al 0%nat) (shp x) 0) ->
  (forall r, (r < length al)%nat -> nth r al 0%nat = a -> nth r kers [] <> [] -> (nth a (shp x) 0 - klen (nth r kers [])) mod nth r sts 1 = 0) ->
  (a < ndim x)%nat -> reversed_on a al kers kers' -> flipped a x x' ->
  exists y y', snd (sep_forward fuel junk m x ax) = Ok y /\ snd (sep_forward fuel junk' m' x' ax) = Ok y' /\ flipped a y y'.
Proof. exact pool_valid_mirror. Qed.
Print Assumptions C94_valid.
Theorem C94_same : forall (F : ofield) fuel junk junk' (m m' : pool F) a (x x' : tensor F) ax al kers kers' sts p p' ms,
  built (length al) kers sts (Some p) m -> built (length al) kers' sts (Some p') m' ->
  same_call F fuel p x ax al ms kers sts -> mirror_values a al p p' -> reversed_on a al kers kers' ->
  (forall r c, (r < length al)%nat -> nth r al 0%nat = a -> nth r kers [] <> [] -> is_ceil_div (nth a (shp x) 0) (nth r sts 1) c ->
     let t := (c - 1) * nth r sts 1 + klen (nth r kers []) - nth a (shp x) 0 in 0 <= t /\ t mod 2 = 0) ->
  (forall r, (r < length al)%nat -> nth r al 0%nat = a -> nth r ms MUnknown = MPeriodize -> nth a (shp x) 0 mod 2 = 0) ->
  (a < ndim x)%nat -> flipped a x x' ->
  exists y y', snd (sep_forward fuel junk m x ax) = Ok y /\ snd (sep_forward fuel junk' m' x' ax) = Ok y' /\ flipped a y y'.
Proof. exact pool_same_mirror. Qed.
Print Assumptions C94_same.
Definition k12 : list QcF := [qz 1; qz 2].
Definition k21 : list QcF := [qz 2; qz 1].
Definition k123 : list QcF := [qz 1; qz 2; qz 3].
Definition k321 : list QcF := [qz 3; qz 2; qz 1].
Definition pl (k : list QcF) (s : Z) pd : pool QcF := mkPool (NItem k) (NItem (Z.of_nat (length k))) (NItem s) pd 0.
Lemma pl_built k s pd : k <> [] -> 1 <= s -> built 1 [k] [s] pd (pl k s pd).
Proof.
  intros Hk Hs. apply (built_init 1 [k] (NItem k) (NItem (Some s)) [Some s]); try reflexivity.
  destruct k; [congruence|]. unfold sep_init, read_stride, nds_map, check_stride. destruct (Z.ltb_spec s 1); [lia|]. reflexivity.
Qed.
Lemma sym_values w m : mirror_values 0 [0%nat] (sym w m) (sym w m).
Proof.
  constructor; [reflexivity| | |]; eexists; eexists; (split; [reflexivity|]; split; [reflexivity|]);
  intros [|r] d Hr; [reflexivity|cbn in Hr; lia|reflexivity|cbn in Hr; lia|reflexivity|cbn in Hr; lia].
Qed.
Lemma sym_call k s m : 1 <= s -> klen k <= 3 -> fills m -> same_call QcF 9 (sym (0, 0) m) x3 (AxInt 0) [0%nat] [m] [k] [s].
Proof.
  intros Hs Hk Hm. split.
  - split; [reflexivity|intros a [<-|[]]; unfold ndim; cbn; lia|repeat constructor; intros []].
  - unfold ndim. cbn. lia.
  - intros [|d] Hd; cbn; [lia|unfold ndim in Hd; cbn in Hd; lia].
  - intros a [<-|[]]. cbn. lia.
  - intros [|r] Hr; cbn in *; lia.
  - split; [reflexivity|discriminate|discriminate|discriminate].
  - intros m' [<-|[]]. auto.
  - intros [|d] k' Hd H; [|unfold ndim in Hd; cbn in Hd; lia]. cbn [shp x3 ofz ofl nth]. destruct H as [->|[ker [[<-|[]] ->]]]; lia.
Qed.
Example C94_example :
  built 1 [k12] [1] None (pl k12 1 None) /\ built 1 [k21] [1] None (pl k21 1 None) /\ reversed_on 0 [0%nat] [k12] [k21] /\
  (forall r, (r < 1)%nat -> (3 - klen (nth r [k12] [])) mod nth r [1] 1 = 0) /\
  same_call QcF 9 (sym (0, 0) MReplicate) x3 (AxInt 0) [0%nat] [MReplicate] [k123] [2] /\
  mirror_values 0 [0%nat] (sym (0, 0) (@MReplicate QcF)) (sym (0, 0) MReplicate) /\ reversed_on 0 [0%nat] [k123] [k321] /\
  is_ceil_div 3 2 2 /\ ((2 - 1) * 2 + klen k123 - 3) mod 2 = 0 /\ flipped 0 x3 r3 /\
  show (snd (sep_forward 9 garbage (pl k12 1 None) x3 (AxInt 0))) = Some ([2], zq [5; 10]) /\
  show (snd (sep_forward 9 garbage (pl k21 1 None) r3 (AxInt 0))) = Some ([2], zq [10; 5]) /\
  show (snd (sep_forward 9 garbage (pl k123 2 (Some (sym (0, 0) MReplicate))) x3 (AxInt 0))) = Some ([2], zq [9; 22]) /\
  show (snd (sep_forward 9 garbage (pl k321 2 (Some (sym (0, 0) MReplicate))) r3 (AxInt 0))) = Some ([2], zq [22; 9]).
Proof.
  split; [apply pl_built; [discriminate|lia]|]. split; [apply pl_built; [discriminate|lia]|].
  split. { intros [|r] Hr; cbn in *; [reflexivity|lia]. }
  split. { intros [|r] Hr; [reflexivity|lia]. }
  split; [apply sym_call; [lia|unfold klen; cbn; lia|exact I]|]. split; [apply sym_values|].
  split. { intros [|r] Hr; cbn in *; [reflexivity|lia]. }
  split; [unfold is_ceil_div; lia|]. split; [reflexivity|]. split; [apply r3_flipped|].
  repeat split; vm_compute; reflexivity.
Qed.

(** ** C95: a filter with a palindromic kernel of odd length along a commutes with mirroring along a;
    mean kernels, and Gaussian kernels of odd size, are palindromes; the Gaussian derivative kernel of order n
    read backwards is itself times (-1)^n. *)
Theorem C95_filter : forall (F : ofield) fuel junk junk' (m : pool F) a (x x' : tensor F) ax al kers p ms,
  built (length al) kers (repeat 1 (length al)) (Some p) m ->
  same_call F fuel p x ax al ms kers (repeat 1 (length al)) -> mirror_values a al p p ->
  (forall r, (r < length al)%nat -> nth r al 0%nat = a -> rev (nth r kers []) = nth r kers [] /\
     (nth r kers [] = [] \/ klen (nth r kers []) mod 2 = 1) /\
     (nth r ms MUnknown = MPeriodize -> nth a (shp x) 0 mod 2 = 0)) ->
  (a < ndim x)%nat -> flipped a x x' ->
  exists y y', snd (sep_forward fuel junk m x ax) = Ok y /\ snd (sep_forward fuel junk' m x' ax) = Ok y' /\ flipped a y y'.
Proof. exact filter_mirror. Qed.
Print Assumptions C95_filter.
Theorem C95_mean : forall (F : ofield) k (ker : list F), avg_kernel_1d k = Ok ker -> rev ker = ker.
Proof. exact avg_palindrome. Qed.
Print Assumptions C95_mean.
Theorem C95_gauss : forall ks sigma n k, 1 <= ks -> sigma <> 0%R -> 0 <= n -> Z.odd ks = true -> gaussian_kernel_1d ks sigma n = Ok k ->
  rev k = map (fun v => ((-1) ^ Z.to_nat n * v)%R) k.
Proof. exact gauss_reversed. Qed.
Print Assumptions C95_gauss.
Definition k131 : list QcF := [qz 1; qz 3; qz 1].
Definition k11 : list QcF := [qz 1; qz 1].
Example C95_example : built 1 [k131] (repeat 1 1) (Some (sym (0, 0) MReflect)) (pl k131 1 (Some (sym (0, 0) MReflect))) /\
  same_call QcF 9 (sym (0, 0) MReflect) x3 (AxInt 0) [0%nat] [MReflect] [k131] (repeat 1 1) /\
  rev k131 = k131 /\ klen k131 mod 2 = 1 /\
  show (snd (sep_forward 9 garbage (pl k131 1 (Some (sym (0, 0) MReflect))) x3 (AxInt 0))) = Some ([3], zq [7; 11; 16]) /\
  show (snd (sep_forward 9 garbage (pl k131 1 (Some (sym (0, 0) MReflect))) r3 (AxInt 0))) = Some ([3], zq [16; 11; 7]) /\
  avg_kernel_1d 3 = Ok [qq 1 3; qq 1 3; qq 1 3].
Proof.
  split; [apply pl_built; [discriminate|lia]|]. split; [apply sym_call; [lia|unfold klen; cbn; lia|exact I]|].
  repeat split; vm_compute; reflexivity.
Qed.
(** With kernels of even length one side gets one sample more. *)
Theorem C95_even_differs : exists (m : pool QcF) p k x x' y y', built 1 [k] [1] (Some p) m /\
  same_call QcF 9 p x (AxInt 0) [0%nat] [MReplicate] [k] [1] /\ mirror_values 0 [0%nat] p p /\ rev k = k /\ klen k = 2 /\ flipped 0 x x' /\
  snd (sep_forward 9 garbage m x (AxInt 0)) = Ok y /\ snd (sep_forward 9 garbage m x' (AxInt 0)) = Ok y' /\ ~ flipped 0 y y'.
Proof.
  exists (pl k11 1 (Some (sym (0, 0) MReplicate))), (sym (0, 0) MReplicate), k11, x3, r3.
  destruct (not_flipped 3 (snd (sep_forward 9 garbage (pl k11 1 (Some (sym (0, 0) MReplicate))) x3 (AxInt 0)))
    (snd (sep_forward 9 garbage (pl k11 1 (Some (sym (0, 0) MReplicate))) r3 (AxInt 0))) (zq [2; 3; 6]) (zq [8; 6; 3]) 0)
    as [y [y' E]]; [vm_compute; reflexivity|vm_compute; reflexivity|lia|discriminate|].
  exists y, y'. split; [apply pl_built; [discriminate|lia]|]. split; [apply sym_call; [lia|unfold klen; cbn; lia|exact I]|].
  split; [apply sym_values|]. split; [reflexivity|]. split; [reflexivity|]. split; [apply r3_flipped|]. exact E.
Qed.
Print Assumptions C95_even_differs.

(** ** C96: a filter with copying padding modes in closed form; it commutes with cyclic shifts along
    circular axes. *)
Theorem C96_closed_form : forall (F : ofield) fuel junk (f : pool F) (x : tensor F) ax al kers p ms,
  built (length al) kers (repeat 1 (length al)) (Some p) f ->
  same_call F fuel p x ax al ms kers (repeat 1 (length al)) -> (forall m, In m ms -> copying m) ->
  exists y, snd (sep_forward fuel junk f x ax) = Ok y /\ shp y = shp x /\
    forall j, valid (shp x) j -> at_ y j = bsum (map klen (map eff_kernel kers)) (fun o =>
      fmul (weight (map eff_kernel kers) o) (at_ x (look al ms (map klen (map eff_kernel kers)) (shp x) j o))).
Proof. exact filter_copying. Qed.
Print Assumptions C96_closed_form.
Theorem C96_shift : forall (F : ofield) fuel junk junk' (f : pool F) (x x' : tensor F) ax al kers p ms a s,
  built (length al) kers (repeat 1 (length al)) (Some p) f ->
  same_call F fuel p x ax al ms kers (repeat 1 (length al)) -> (forall m, In m ms -> copying m) ->
  (a < ndim x)%nat -> (forall r, (r < length al)%nat -> nth r al 0%nat = a -> nth r ms MUnknown = MCircular) ->
  shifted a s x x' ->
  exists y y', snd (sep_forward fuel junk f x ax) = Ok y /\ snd (sep_forward fuel junk' f x' ax) = Ok y' /\ shifted a s y y'.
Proof. exact filter_shift. Qed.
Print Assumptions C96_shift.
Definition s3 := ofz [3] [2; 4; 1].
Example C96_example : built 1 [k12] (repeat 1 1) (Some (sym (0, 0) MCircular)) (pl k12 1 (Some (sym (0, 0) MCircular))) /\
  same_call QcF 9 (sym (0, 0) MCircular) x3 (AxInt 0) [0%nat] [MCircular] [k12] (repeat 1 1) /\ copying (@MCircular QcF) /\
  shifted 0 1 x3 s3 /\
  show (snd (sep_forward 9 garbage (pl k12 1 (Some (sym (0, 0) MCircular))) x3 (AxInt 0))) = Some ([3], zq [6; 5; 10]) /\
  show (snd (sep_forward 9 garbage (pl k12 1 (Some (sym (0, 0) MCircular))) s3 (AxInt 0))) = Some ([3], zq [5; 10; 6]) /\
  look [0%nat] [@MCircular QcF] [2] [3] [0] [0] = [2].
Proof.
  split; [apply pl_built; [discriminate|lia]|]. split; [apply sym_call; [lia|unfold klen; cbn; lia|exact I]|]. split; [left; reflexivity|].
  split. { split; [reflexivity|]. intros i V. apply valid1 in V as [k [-> Hk]]. assert (k = 0 \/ k = 1 \/ k = 2) as [->|[->| ->]] by lia; vm_compute; reflexivity. }
  repeat split; vm_compute; reflexivity.
Qed.
