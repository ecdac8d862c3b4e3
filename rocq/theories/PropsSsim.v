(** C51-C54, C76, C77: SSIM and MS_SSIM.

    Vocabulary (SsimMain.v, SsimCrop.v, SsimValue.v, MsForward.v, MsReal.v; see also PropsPool.v):
    - [ssim_call fuel s x y cax rax al rl kers pd]: images of one shape with positive sizes, content
      axes al, reduced axes rl, a blur built with one kernel per content axis, stride 1 and same
      padder pd (None: none); without a padder, or with crop_border, the kernels fit in the image;
      with sample covariance the window has more than one pixel;
    - [window kers]: kernels with nonnegative entries and sum 1 (or empty);
    - [proper_padder n pd]: no padder, or one whose modes all commute with products, or whose modes
      all average pixels and zeros (see [product_mode], [average_mode] in PadRelation.v);
    - [exact_widths pd al sh]: no axis of odd length is padded in periodize mode;
    - [inner al kers j]: j shifted by half the kernel on the content axes;
    - [ms_call]: a call of MS_SSIM, before the size check;
    - [large_enough L kers al sh]: kernel * 2^(L-1) < size, on every content axis;
    - [proper_settings]: window, proper padder, K1 and K2 not 0;
    - [same_scores], [same_result]: both fail with the same error, or both give equal tensors;
    - [level_size sh al r i]: size of the r-th content axis after i halvings. *)
From Coq Require Import QArith Qcanon Reals.
From Verif Require Import SsimValue SsimRefute.
Open Scope Z_scope.


Definition ax1 := AxSlice (sfrom 1).
Notation run x y s := (snd (ssim_forward (sep_forward 20 garbage) x y ax1 ax1 s)).

(** ** C51 *)
(** The map and the score, without padding. *)
Theorem C51_value : forall (F : ofield) fuel junk (s : ssim F) (x y : tensor F) cax rax al rl kers score full,
  ssim_call fuel s x y cax rax al rl kers None -> rl <> [] ->
  snd (ssim_forward (sep_forward fuel junk) x y cax rax s) = Ok (score, full) ->
  let n := zprod (map klen kers) in
  let c := if ss_sample s then fdiv (fofZ n) (fofZ (n - 1)) else f1 in
  let E z j := correlation al kers (repeat 1 (length al)) z j in
  ndim full = ndim x /\
  (forall r, (r < length al)%nat -> nth (nth r al 0%nat) (shp full) 0 = nth (nth r al 0%nat) (shp x) 0 - Z.max 1 (klen (nth r kers [])) + 1) /\
  (forall d, ~ In d al -> nth d (shp full) 0 = nth d (shp x) 0) /\
  (forall j, valid (shp full) j -> at_ full j = ssim_at (ss_K1 s) (ss_K2 s) c (E x j) (E y j) (E (prodt x x) j) (E (prodt y y) j) (E (prodt x y) j)) /\
  shp score = outside rl (shp full) /\
  (forall j L, valid (shp score) j -> block_of (shp full) rl j L -> 0 < Z.of_nat (length L) /\ at_ score j = fdiv (lsum (map (at_ full) L)) (fofZ (Z.of_nat (length L)))).
Proof. exact ssim_value. Qed.
Print Assumptions C51_value.
Example C51_value_ex : ssim_call 20 (s51 None true) x51 y51 ax1 ax1 [1%nat; 2%nat] [1%nat; 2%nat] kers51 None /\
  show2 (run x51 y51 (s51 None false)) =
    (Some ([2], [15775097801962463 # 16986046027977390; -1733 # 3234]%Q),
     Some ([2; 2; 2], [29684 # 32305; 36244 # 39405; 357445 # 385217; 612197 # 645585; -7 # 11; -7 # 11; -64 # 147; -64 # 147]%Q)) /\
  fst (show2 (run x51 y51 (s51 None true))) = Some ([2], [570569277776133941 # 614443691825279589; -1062367 # 1818528]%Q).
Proof. split; [apply call51; auto|]. split; vm_compute; reflexivity. Qed.

(** The constructor turns the blur into a filter: stride 1, the given padder (or else the blur's own). *)
Theorem C51_constructor : forall (F : ofield) (blur : pool F) pd pd0 K1 K2 sample crop n kers sts,
  built n kers sts pd0 blur ->
  exists s, ssim_init blur pd K1 K2 sample crop = Ok s /\
    built n kers (repeat 1 n) (match pd with None => pd0 | Some _ => pd end) (ss_blur s) /\
    nds_get (pl_stride (ss_blur s)) 0 = Ok 1 /\ pl_padder (ss_blur s) = (match pd with None => pd0 | Some _ => pd end) /\
    ss_K1 s = K1 /\ ss_K2 s = K2 /\ ss_sample s = sample /\ ss_crop s = crop.
Proof. exact ssim_constructor. Qed.
Print Assumptions C51_constructor.
Example C51_constructor_ex : built 2 kers51 [1; 2] None (mkPool (NList [kerA; kerB]) (NList [3; 2]) (NList [1; 2]) None 2) /\
  ssim_init (mkPool (NList [kerA; kerB]) (NList [3; 2]) (NList [1; 2]) None 2) (Some repl) (qq 1 2) (qq 1 3) true true = Ok (s51 (Some repl) true).
Proof. split; [apply (built_init 2 [kerA; kerB] (NList [kerA; kerB]) (NList [Some 1; None]) [Some 1; None]); reflexivity|reflexivity]. Qed.
Theorem C51_symmetric : forall (F : ofield) fuel junk (s : ssim F) (x y : tensor F) cax rax al rl kers pd,
  ssim_call fuel s x y cax rax al rl kers pd ->
  same_scores (snd (ssim_forward (sep_forward fuel junk) x y cax rax s)) (snd (ssim_forward (sep_forward fuel junk) y x cax rax s)).
Proof. exact ssim_symmetric. Qed.
Print Assumptions C51_symmetric.
(** The score of an image with itself is 1, unless a divisor is 0 (torch: nan). *)
Theorem C51_identical_partial : forall (F : ofield) fuel junk (s : ssim F) (x : tensor F) cax rax al rl kers pd,
  ssim_call fuel s x x cax rax al rl kers pd ->
  match snd (ssim_forward (sep_forward fuel junk) x x cax rax s) with
  | Ok (score, full) => constant_image f1 score /\ constant_image f1 full
  | Err e => e = ZeroDivisionError
  end.
Proof. exact ssim_self. Qed.
Print Assumptions C51_identical_partial.
(** With K2 = 0 a constant image has no score. *)
Theorem C51_identical_refuted : exists (s : ssim QcF) (x : tensor QcF) al rl kers pd,
  ssim_call 20 s x x AxNone AxNone al rl kers pd /\ window QcF kers /\ proper_padder (length al) pd /\ ss_K1 s <> f0 /\
  snd (ssim_forward (sep_forward 20 garbage) x x AxNone AxNone s) = Err ZeroDivisionError.
Proof. exact ssim_no_score. Qed.
Print Assumptions C51_identical_refuted.
(** For a window and a proper padder, with K1 and K2 not 0, there is a score, and it lies in [-1, 1]. *)
Theorem C51_bounded : forall (F : ofield) fuel junk (s : ssim F) (x y : tensor F) cax rax al rl kers pd,
  ssim_call fuel s x y cax rax al rl kers pd ->
  window F kers -> proper_padder (length al) pd -> ss_K1 s <> f0 -> ss_K2 s <> f0 ->
  exists score full, snd (ssim_forward (sep_forward fuel junk) x y cax rax s) = Ok (score, full) /\
    in_range (fopp f1) f1 score /\ in_range (fopp f1) f1 full.
Proof. exact ssim_bounded. Qed.
Print Assumptions C51_bounded.
Example C51_bounded_ex : ssim_call 20 (s51 (Some repl) true) x51 y51 ax1 ax1 [1%nat; 2%nat] [1%nat; 2%nat] kers51 (Some repl) /\
  window QcF kers51 /\ proper_padder 2 (Some repl) /\ ss_K1 (s51 (Some repl) true) <> f0 /\ ss_K2 (s51 (Some repl) true) <> f0 /\
  fst (show2 (run x51 y51 (s51 (Some repl) true))) = Some ([2], [570569277776133941 # 614443691825279589; -1062367 # 1818528]%Q) /\
  fst (show2 (run y51 x51 (s51 (Some repl) true))) = Some ([2], [570569277776133941 # 614443691825279589; -1062367 # 1818528]%Q) /\
  fst (show2 (run x51 x51 (s51 (Some repl) true))) = Some ([2], zq [1; 1]).
Proof.
  split; [apply call51; right; exists repl; split; auto; exists MReplicate; split; auto; exact I|].
  split; [intros k [<-|[<-|[]]]; [apply windowA|apply windowB]; now left|].
  split; [left; exists [MReplicate; MReplicate], [(qz 7, qz 8); (qz 7, qz 8)], [(qz 0, qz 10); (qz 0, qz 10)]; repeat split; try reflexivity; nats|].
  split; [discriminate|]. split; [discriminate|]. repeat split; vm_compute; reflexivity.
Qed.
(** Padders that do not commute with products can push the score above 1. *)
Theorem C51_padder_hypothesis_needed : exists (s : ssim QcF) (x y : tensor QcF) al rl kers pd score full,
  ssim_call 20 s x y AxNone AxNone al rl kers pd /\ window QcF kers /\ ss_K1 s <> f0 /\ ss_K2 s <> f0 /\
  snd (ssim_forward (sep_forward 20 garbage) x y AxNone AxNone s) = Ok (score, full) /\ ~ in_range (fopp f1) f1 score.
Proof. exact ssim_exceeds. Qed.
Print Assumptions C51_padder_hypothesis_needed.

(** ** C52 *)
(** After cropping, map and score are those computed without padding.  Missing: periodize on an
    axis of odd length (refuted below). *)
Theorem C52_crop_partial : forall (F : ofield) fuel junk fuel0 junk0 (s s0 : ssim F) (x y : tensor F) cax rax al rl kers p score full,
  ssim_call fuel s x y cax rax al rl kers (Some p) -> ss_crop s = true -> exact_widths (Some p) al (shp x) ->
  built (length al) kers (repeat 1 (length al)) None (ss_blur s0) -> same_settings F s s0 ->
  snd (ssim_forward (sep_forward fuel junk) x y cax rax s) = Ok (score, full) ->
  exists score0 full0, snd (ssim_forward (sep_forward fuel0 junk0) x y cax rax s0) = Ok (score0, full0) /\ teq score score0 /\
    (forall r, (r < length al)%nat -> nth (nth r al 0%nat) (shp full0) 0 = nth (nth r al 0%nat) (shp x) 0 - Z.max 1 (klen (nth r kers [])) + 1) /\
    (forall j, valid (shp full0) j -> valid (shp full) (inner al kers j) /\ at_ full (inner al kers j) = at_ full0 j) /\
    exists cr, snd (crop_border full (map Z.of_nat al) (fst (ssim_forward (sep_forward fuel junk) x y cax rax s))) = Ok cr /\ teq cr full0.
Proof. exact ssim_crop. Qed.
Print Assumptions C52_crop_partial.
Theorem C52_mode_partial : forall (F : ofield) fuel junk fuel' junk' (s s' : ssim F) (x y : tensor F) cax rax al rl kers p p' score full score' full',
  ssim_call fuel s x y cax rax al rl kers (Some p) -> ss_crop s = true -> exact_widths (Some p) al (shp x) ->
  ssim_call fuel' s' x y cax rax al rl kers (Some p') -> ss_crop s' = true -> exact_widths (Some p') al (shp x) -> same_settings F s s' ->
  snd (ssim_forward (sep_forward fuel junk) x y cax rax s) = Ok (score, full) ->
  snd (ssim_forward (sep_forward fuel' junk') x y cax rax s') = Ok (score', full') ->
  teq score score'.
Proof. exact ssim_mode_independent. Qed.
Print Assumptions C52_mode_partial.
(** The default constants 7, 8 of [pad1d] are far from the image. *)
Example C52_ex : 
  ssim_call 20 (s51 (Some repl) true) x51 y51 ax1 ax1 [1%nat; 2%nat] [1%nat; 2%nat] kers51 (Some repl) /\
  ssim_call 20 (s51 (Some pad78) true) x51 y51 ax1 ax1 [1%nat; 2%nat] [1%nat; 2%nat] kers51 (Some pad78) /\
  exact_widths (Some repl) [1%nat; 2%nat] (shp x51) /\ exact_widths (Some pad78) [1%nat; 2%nat] (shp x51) /\
  fst (show2 (run x51 y51 (s51 (Some pad78) true))) = fst (show2 (run x51 y51 (s51 None true))) /\
  fst (show2 (run x51 y51 (s51 (Some repl) true))) = fst (show2 (run x51 y51 (s51 None true))) /\
  fst (show2 (run x51 y51 (s51 None true))) <> None.
Proof.
  split; [apply call51; right; exists repl; split; auto; exists MReplicate; split; auto; exact I|].
  split; [apply call51; right; exists pad78; split; auto; exists MConstant; split; auto; exact I|].
  split; [intros p ms r [= <-] [= <-] Hr; left; destruct r as [|[|]]; [discriminate|discriminate|cbn in Hr; lia]|].
  split; [intros p ms r [= <-] [= <-] Hr; left; destruct r as [|[|]]; [discriminate|discriminate|cbn in Hr; lia]|].
  split; [vm_compute; reflexivity|]. split; [vm_compute; reflexivity|]. vm_compute. discriminate.
Qed.
(** periodize extends an axis of odd length by one more pixel, which the crop leaves in. *)
Theorem C52_periodize_refuted : exists (s s0 : ssim QcF) (x y : tensor QcF) al rl kers p score full score0 full0,
  ssim_call 20 s x y AxNone AxNone al rl kers (Some p) /\ ss_crop s = true /\ window QcF kers /\ proper_padder (length al) (Some p) /\
  built (length al) kers (repeat 1 (length al)) None (ss_blur s0) /\ same_settings QcF s s0 /\
  snd (ssim_forward (sep_forward 20 garbage) x y AxNone AxNone s) = Ok (score, full) /\
  snd (ssim_forward (sep_forward 20 garbage) x y AxNone AxNone s0) = Ok (score0, full0) /\ ~ teq score score0.
Proof. exact ssim_crop_periodize. Qed.
Print Assumptions C52_periodize_refuted.

(** ** C53 *)
Notation ms_result F fuel junk pow m x y cax rax s := (snd (ms_forward (F := F) (sep_forward fuel junk) pow (avg_forward fuel junk true) m x y cax rax s)).
(** If the assertion passes, every level is at least as large as the window, and there is a score.
    Missing: empty kernels (refuted below), a single weight (C54), and zero divisors (next theorem). *)
Theorem C53_sufficient_partial : forall (F : ofield) fuel junk (s : ssim F) (x y : tensor F) cax rax al rl kers pd pow m,
  ms_call fuel s x y cax rax al rl kers pd -> (2 <= length (ms_weights m))%nat ->
  window F kers -> proper_padder (length al) pd -> ss_K1 s <> f0 -> ss_K2 s <> f0 ->
  let result := ms_result F fuel junk pow m x y cax rax s in
  result <> Err AssertionError ->
  (forall r i, (r < length al)%nat -> 0 <= i < Z.of_nat (length (ms_weights m)) -> klen (nth r kers []) <= level_size (shp x) al r i) /\
  exists score, result = Ok score.
Proof. exact ms_size_ok. Qed.
Print Assumptions C53_sufficient_partial.
(** The assertion fails exactly if some axis is not larger than kernel * 2^(L-1); after it, only a
    zero divisor or a single weight can fail. *)
Theorem C53_exact_partial : forall (F : ofield) fuel junk (s : ssim F) (x y : tensor F) cax rax al rl kers pd pow m,
  ms_call fuel s x y cax rax al rl kers pd -> ms_weights m <> [] ->
  let result := ms_result F fuel junk pow m x y cax rax s in
  (result = Err AssertionError <-> ~ large_enough (Z.of_nat (length (ms_weights m))) kers al (shp x)) /\
  (forall e, result = Err e -> e = AssertionError \/ e = ZeroDivisionError \/ (e = TypeError /\ exists w, ms_weights m = [w])).
Proof. exact ms_size_any. Qed.
Print Assumptions C53_exact_partial.
(** If a level is smaller than the window, the assertion fails. *)
Theorem C53_first : forall (F : ofield) fuel junk (s : ssim F) (x y : tensor F) cax rax al rl kers pd pow m r i,
  ms_call fuel s x y cax rax al rl kers pd -> ms_weights m <> [] ->
  (r < length al)%nat -> 0 <= i < Z.of_nat (length (ms_weights m)) -> level_size (shp x) al r i < klen (nth r kers []) ->
  ms_result F fuel junk pow m x y cax rax s = Err AssertionError.
Proof. exact ms_size_first. Qed.
Print Assumptions C53_first.
Example C53_ex : ms_call 20 (s54 None) x54 y54 ax1 ax1 [1%nat] [1%nat] [kerB] None /\ proper_settings (s54 None) [1%nat] [kerB] None /\
  show (ms_result QcF 20 garbage ipow (ms_of [qz 2; qz 3] false) x54 y54 ax1 ax1 (s54 None)) = Some ([2], [17296058961869 # 4126617998932; 11064572 # 4206769]%Q) /\
  level_size (shp x54) [1%nat] 0 1 = 3 /\ level_size (shp x54) [1%nat] 0 2 = 1 /\ klen (nth 0 [kerB] []) = 2 /\
  ms_result QcF 20 garbage ipow (ms_of [qz 2; qz 3; qz 1] false) x54 y54 ax1 ax1 (s54 None) = Err AssertionError.
Proof.
  split; [apply call54; auto|]. split; [apply proper54; auto|]. split; [vm_compute; reflexivity|]. split; [reflexivity|]. split; [reflexivity|]. split; [reflexivity|].
  apply errof_some. vm_compute. reflexivity.
Qed.
(** The check is stricter than needed: 4 pixels, two levels and a window of 2 would do. *)
Example C53_strict_ex : level_size [4] [0%nat] 0 0 = 4 /\ level_size [4] [0%nat] 0 1 = 2 /\ klen kerB = 2 /\
  ms_result QcF 20 garbage ipow (ms_of [qz 2; qz 3] false) (ofz [4] [1; 2; 3; 4]) (ofz [4] [1; 2; 3; 4]) AxNone AxNone (s54 None) = Err AssertionError.
Proof. split; [reflexivity|]. split; [reflexivity|]. split; [reflexivity|]. apply errof_some. vm_compute. reflexivity. Qed.
Theorem C53_empty_kernel_refuted : exists (s : ssim QcF) (m : msssim QcF) (x : tensor QcF) al kers,
  on_axes x AxNone al /\ built (length al) kers (repeat 1 (length al)) None (ss_blur s) /\ ss_K1 s <> f0 /\ ss_K2 s <> f0 /\
  (2 <= length (ms_weights m))%nat /\ large_enough (Z.of_nat (length (ms_weights m))) kers al (shp x) /\ (forall n, In n (shp x) -> 1 <= n) /\
  ms_result QcF 20 garbage ipow m x x AxNone AxNone s = Err RuntimeError.
Proof. exact ms_empty_kernel. Qed.
Print Assumptions C53_empty_kernel_refuted.

(** ** C54 *)
(** Missing: a single weight (refuted below).  [pow] is torch.pow. *)
Theorem C54_identical_partial : forall (F : ofield) fuel junk (s : ssim F) (x : tensor F) cax rax al rl kers pd pow m,
  ms_call fuel s x x cax rax al rl kers pd -> (2 <= length (ms_weights m))%nat ->
  proper_settings s al kers pd -> large_enough (Z.of_nat (length (ms_weights m))) kers al (shp x) ->
  (forall w, In w (ms_weights m) -> pow f1 w = f1) -> (ms_prod m = true -> fle (ms_eps m) f1) ->
  exists score, ms_result F fuel junk pow m x x cax rax s = Ok score /\
    constant_image (if ms_prod m then f1 else lsum (ms_weights m)) score.
Proof. exact ms_self_total. Qed.
Print Assumptions C54_identical_partial.
(** Any window, padder and K1, K2, provided there is a score. *)
Theorem C54_any_blur_partial : forall (F : ofield) fuel junk (s : ssim F) (x : tensor F) cax rax al rl kers pd pow m score,
  ms_call fuel s x x cax rax al rl kers pd -> ms_weights m <> [] ->
  (forall w, In w (ms_weights m) -> pow f1 w = f1) -> (ms_prod m = true -> fle (ms_eps m) f1) ->
  ms_result F fuel junk pow m x x cax rax s = Ok score ->
  constant_image (if ms_prod m then f1 else lsum (ms_weights m)) score.
Proof. exact ms_self. Qed.
Print Assumptions C54_any_blur_partial.
(** Over the reals, with exp(w ln v) for torch.pow. *)
Theorem C54_real_partial : forall fuel junk (s : ssim RF) (x : tensor RF) cax rax al rl kers pd m,
  ms_call fuel s x x cax rax al rl kers pd -> (2 <= length (ms_weights m))%nat ->
  proper_settings s al kers pd -> large_enough (Z.of_nat (length (ms_weights m))) kers al (shp x) -> (ms_eps m <= 1)%R ->
  exists score, ms_result RF fuel junk Rpower m x x cax rax s = Ok score /\
    constant_image (if ms_prod m then (1%R : RF) else lsum (ms_weights m)) score.
Proof. exact ms_self_real. Qed.
Print Assumptions C54_real_partial.
Example C54_ex : ms_call 20 (s54 (Some repl)) x54 x54 ax1 ax1 [1%nat] [1%nat] [kerB] (Some repl) /\
  proper_settings (s54 (Some repl)) [1%nat] [kerB] (Some repl) /\ large_enough 2 [kerB] [1%nat] (shp x54) /\
  (forall w, In w [qz 2; qz 3] -> ipow f1 w = f1) /\ fle (ms_eps (ms_of [qz 2; qz 3] true)) f1 /\
  show (ms_result QcF 20 garbage ipow (ms_of [qz 2; qz 3] true) x54 x54 ax1 ax1 (s54 (Some repl))) = Some ([2], zq [1; 1]) /\
  show (ms_result QcF 20 garbage ipow (ms_of [qz 2; qz 3] false) x54 x54 ax1 ax1 (s54 (Some repl))) = Some ([2], zq [5; 5]).
Proof.
  split; [apply call54; auto; right; exists MReplicate; split; auto; exact I|]. split; [apply proper54; auto|]. split; [apply large54|].
  split; [intros w [<-|[<-|[]]]; apply Qc_is_canon; reflexivity|]. split; [reflexivity|]. split; vm_compute; reflexivity.
Qed.
(** With one weight final_score is still None when it is multiplied. *)
Theorem C54_single_weight_refuted : exists (s : ssim QcF) (m : msssim QcF) (x : tensor QcF) al rl kers pd,
  ms_call 20 s x x (AxSlice (sfrom 1)) (AxSlice (sfrom 1)) al rl kers pd /\ proper_settings s al kers pd /\
  ms_weights m <> [] /\ large_enough (Z.of_nat (length (ms_weights m))) kers al (shp x) /\ fle (ms_eps m) f1 /\ (forall w, In w (ms_weights m) -> ipow f1 w = f1) /\
  ms_result QcF 20 garbage ipow m x x (AxSlice (sfrom 1)) (AxSlice (sfrom 1)) s = Err TypeError.
Proof. exact ms_one_weight. Qed.
Print Assumptions C54_single_weight_refuted.
(** In fact no call with a single weight succeeds. *)
Theorem C54_single_weight_never : forall (F : ofield) fuel junk (s : ssim F) (x y : tensor F) cax rax al rl kers pd pow m w,
  ms_call fuel s x y cax rax al rl kers pd -> ms_weights m = [w] -> large_enough 1 kers al (shp x) ->
  let result := ms_result F fuel junk pow m x y cax rax s in result = Err TypeError \/ result = Err ZeroDivisionError.
Proof. exact ms_single. Qed.
Print Assumptions C54_single_weight_never.
(** Nor does any call without weights: the size check becomes k * 2 ** -1 < n, and weights[-1] does not exist. *)
Theorem C54_no_weights_never : forall (F : ofield) fuel junk (s : ssim F) (x y : tensor F) cax rax al rl kers pd pow m,
  ms_call fuel s x y cax rax al rl kers pd -> ms_weights m = [] ->
  let result := ms_result F fuel junk pow m x y cax rax s in
  (forall score, result <> Ok score) /\
  ((exists r, (r < length al)%nat /\ 2 * nth (nth r al 0%nat) (shp x) 0 <= klen (nth r kers [])) -> result = Err AssertionError) /\
  ((forall r, (r < length al)%nat -> klen (nth r kers []) <= nth (nth r al 0%nat) (shp x) 0) -> result = Err IndexError \/ result = Err ZeroDivisionError).
Proof. exact ms_none. Qed.
Print Assumptions C54_no_weights_never.
Example C54_no_weights_ex : ms_call 20 (s54 None) x54 y54 ax1 ax1 [1%nat] [1%nat] [kerB] None /\
  errof (ms_result QcF 20 garbage ipow (ms_of [] true) x54 y54 ax1 ax1 (s54 None)) = Some IndexError /\
  errof (ms_result QcF 20 garbage ipow (ms_of [] true) (ofz [1; 2] [1; 5]) (ofz [1; 2] [4; 6]) ax1 ax1 (s54 None)) = Some IndexError /\
  errof (ms_result QcF 20 garbage ipow (ms_of [] true) (ofz [2; 1] [1; 5]) (ofz [2; 1] [4; 6]) ax1 ax1 (s54 None)) = Some AssertionError.
Proof. split; [apply call54; auto|]. split; [|split]; vm_compute; reflexivity. Qed.

(** ** C76 *)
Theorem C76_symmetric : forall (F : ofield) fuel junk (s : ssim F) (x y : tensor F) cax rax al rl kers pd pow m,
  ms_call fuel s x y cax rax al rl kers pd -> (2 <= length (ms_weights m))%nat ->
  same_result (ms_result F fuel junk pow m x y cax rax s) (ms_result F fuel junk pow m y x cax rax s).
Proof. exact ms_symmetric. Qed.
Print Assumptions C76_symmetric.
Example C76_ex : ms_call 20 (s54 None) x54 y54 ax1 ax1 [1%nat] [1%nat] [kerB] None /\
  show (ms_result QcF 20 garbage ipow (ms_of [qz 2; qz 3] true) x54 y54 ax1 ax1 (s54 None)) =
    Some ([2], [1220474240608715330917225844691 # 3122705522984071731951115066624; 2404139862423831417 # 60631284867597542252]%Q) /\
  show (ms_result QcF 20 garbage ipow (ms_of [qz 2; qz 3] true) y54 x54 ax1 ax1 (s54 None)) =
    Some ([2], [1220474240608715330917225844691 # 3122705522984071731951115066624; 2404139862423831417 # 60631284867597542252]%Q).
Proof. split; [apply call54; auto|]. split; vm_compute; reflexivity. Qed.

(** ** C77 *)
(** [weights_ok]: with use_prod, eps <= 1 and powers of numbers in [eps, 1] lie in [0, 1];
    otherwise the weights are nonnegative. *)
Theorem C77_bounded : forall (F : ofield) fuel junk (s : ssim F) (x y : tensor F) cax rax al rl kers pd pow m,
  ms_call fuel s x y cax rax al rl kers pd -> (2 <= length (ms_weights m))%nat ->
  proper_settings s al kers pd -> large_enough (Z.of_nat (length (ms_weights m))) kers al (shp x) -> weights_ok F pow m ->
  exists score, ms_result F fuel junk pow m x y cax rax s = Ok score /\
    in_range (if ms_prod m then f0 else fopp (lsum (ms_weights m))) (if ms_prod m then f1 else lsum (ms_weights m)) score.
Proof. exact ms_bounded_total. Qed.
Print Assumptions C77_bounded.
Theorem C77_real : forall fuel junk (s : ssim RF) (x y : tensor RF) cax rax al rl kers pd m,
  ms_call fuel s x y cax rax al rl kers pd -> (2 <= length (ms_weights m))%nat ->
  proper_settings s al kers pd -> large_enough (Z.of_nat (length (ms_weights m))) kers al (shp x) ->
  (0 < ms_eps m <= 1)%R -> (forall w : R, In w (ms_weights m) -> (0 <= w)%R) ->
  exists score, ms_result RF fuel junk Rpower m x y cax rax s = Ok score /\
    forall i, valid (shp score) i -> ((if ms_prod m then 0 else - lsum (ms_weights m)) <= at_ score i <= (if ms_prod m then 1 else lsum (ms_weights m)))%R.
Proof. exact ms_bounded_real. Qed.
Print Assumptions C77_real.
Example C77_ex : proper_settings (s54 (Some repl)) [1%nat] [kerB] (Some repl) /\ large_enough 2 [kerB] [1%nat] (shp x54) /\
  weights_ok QcF ipow (ms_of [qz 2; qz 3] false) /\ fle f0 (qq 1 100) /\
  show (ms_result QcF 20 garbage ipow (ms_of [qz 2; qz 3] false) x54 y54 ax1 ax1 (s54 (Some repl))) = Some ([2], [17296058961869 # 4126617998932; 11064572 # 4206769]%Q).
Proof.
  split; [apply proper54; auto|]. split; [apply large54|]. split; [intros w [<-|[<-|[]]]; reflexivity|]. split; [reflexivity|]. vm_compute; reflexivity.
Qed.
