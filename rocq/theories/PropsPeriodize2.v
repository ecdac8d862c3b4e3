(** C131: SSIM, GaussianGrad, LaplacianOfGaussian and UnsharpMask in mode periodize, for all lengths.

    Vocabulary (SsimPeriodize.v; PropsSsim.v, PropsPeriodize.v):
    - [evened A x x']: x' is x with the last slice along every axis of A that has an odd length repeated once;
    - [grown_axes al kers A]: A are the filtered axes whose kernel has at least two samples (others are padded by (0, 0));
    - [ssim_call], [same_settings], [same_scores], [inner]: as in C51, C52 and C121. *)
From Coq Require Import QArith Qcanon Reals Lra.
From Verif Require Import SsimPeriodize GaussPeriodize PropsGauss PropsMirror SsimRefute ExampleUtil PropsSsim PropsPeriodize.
Open Scope Z_scope.

(** ** SSIM in mode periodize is SSIM in mode circular of the two evened images: same failure, or same score and map. *)
Theorem C131_circular : forall (F : ofield) fuel junk fuel' junk' (g g' : ssim F) (x y x' y' : tensor F) cax cax' rax rax' al rl kers p p' A,
  ssim_call fuel g x y cax rax al rl kers (Some p) -> ssim_call fuel' g' x' y' cax' rax' al rl kers (Some p') ->
  expand (length al) (p_mode p) = Some (repeat MPeriodize (length al)) -> expand (length al) (p_mode p') = Some (repeat MCircular (length al)) ->
  same_settings F g g' -> ss_crop g' = ss_crop g -> grown_axes al kers A -> evened A x x' -> evened A y y' ->
  same_scores (snd (ssim_forward (sep_forward fuel junk) x y cax rax g)) (snd (ssim_forward (sep_forward fuel' junk') x' y' cax' rax' g')).
Proof. exact ssim_periodize. Qed.
Print Assumptions C131_circular.

(** ** With crop_border, it is the unpadded SSIM of the evened images, for all lengths. *)
Theorem C131_crop : forall (F : ofield) fuel junk fuel0 junk0 (g g0 : ssim F) (x y x' y' : tensor F) cax rax al rl kers p A score full,
  ssim_call fuel g x y cax rax al rl kers (Some p) -> ss_crop g = true ->
  expand (length al) (p_mode p) = Some (repeat MPeriodize (length al)) ->
  built (length al) kers (repeat 1 (length al)) None (ss_blur g0) -> same_settings F g g0 -> grown_axes al kers A -> evened A x x' -> evened A y y' ->
  snd (ssim_forward (sep_forward fuel junk) x y cax rax g) = Ok (score, full) ->
  exists score0 full0, snd (ssim_forward (sep_forward fuel0 junk0) x' y' cax rax g0) = Ok (score0, full0) /\ teq score score0 /\
    (forall r, (r < length al)%nat -> nth (nth r al 0%nat) (shp full0) 0 =
       nth (nth r al 0%nat) (shp x') 0 - Z.max 1 (klen (nth r kers [])) + 1) /\
    forall j, valid (shp full0) j -> valid (shp full) (SsimCrop.inner al kers j) /\ at_ full (SsimCrop.inner al kers j) = at_ full0 j.
Proof. exact ssim_periodize_crop. Qed.
Print Assumptions C131_crop.

Definition perz : padder QcF := pad1d (0, 0) MPeriodize.
Definition circ : padder QcF := pad1d (0, 0) MCircular.
Lemma even51 : ssim_call 20 (s51 (Some circ) true) (even_out [1; 2]%nat x51) (even_out [1; 2]%nat y51) ax1 ax1 [1%nat; 2%nat] [1%nat; 2%nat] kers51 (Some circ).
Proof.
  split.
  - reflexivity.
  - ex_on.
  - ex_on.
  - apply built51.
  - exists [MCircular; MCircular]. split; [ex_on | unfold ndim; cbn; lia | nats | | nats | | |].
    + intros a [<-|[<-|[]]]; cbn; lia.
    + split; [reflexivity|discriminate|discriminate|discriminate].
    + intros k [<-|[<-|[]]]; exact I.
    + intros d k Hd Hk. assert (nth d (shp (even_out [1; 2]%nat x51)) 0 <= 5) by (cbn in Hd; repeat (destruct d as [|d]; [cbn; lia | try (exfalso; lia)])).
      destruct Hk as [->|[ker [[<-|[<-|[]]] ->]]]; unfold klen; cbn [kerA kerB length]; lia.
  - intros _. nats; unfold klen; cbn; lia.
  - change (shp (even_out [1; 2]%nat x51)) with [2; 4; 4]; intros n [<-|[<-|[<-|[]]]]; lia.
  - intros _ E. discriminate.
Qed.
(** The 4 x 3 images of C51 gain a column; the scores differ from the unpadded ones of the images themselves. *)
Example C131_example :
  ssim_call 20 (s51 (Some perz) true) x51 y51 ax1 ax1 [1%nat; 2%nat] [1%nat; 2%nat] kers51 (Some perz) /\
  ssim_call 20 (s51 (Some circ) true) (even_out [1; 2]%nat x51) (even_out [1; 2]%nat y51) ax1 ax1 [1%nat; 2%nat] [1%nat; 2%nat] kers51 (Some circ) /\
  expand 2 (p_mode perz) = Some (repeat MPeriodize 2) /\ expand 2 (p_mode circ) = Some (repeat MCircular 2) /\
  same_settings QcF (s51 (Some perz) true) (s51 (Some circ) true) /\ grown_axes [1; 2]%nat kers51 [1; 2]%nat /\
  evened [1; 2]%nat x51 (even_out [1; 2]%nat x51) /\ evened [1; 2]%nat y51 (even_out [1; 2]%nat y51) /\
  built 2 kers51 [1; 1] None (ss_blur (s51 None true)) /\
  shp (even_out [1; 2]%nat x51) = [2; 4; 4] /\
  show2 (run x51 y51 (s51 (Some perz) true)) = show2 (run (even_out [1; 2]%nat x51) (even_out [1; 2]%nat y51) (s51 (Some circ) true)) /\
  fst (show2 (run x51 y51 (s51 (Some perz) true))) = fst (show2 (run (even_out [1; 2]%nat x51) (even_out [1; 2]%nat y51) (s51 None true))) /\
  fst (show2 (run x51 y51 (s51 (Some perz) true))) <> None /\
  fst (show2 (run x51 y51 (s51 (Some perz) true))) <> fst (show2 (run x51 y51 (s51 None true))).
Proof.
  split; [apply call51; right; exists perz; split; auto; exists MPeriodize; split; auto; exact I|].
  split; [apply even51|]. split; [reflexivity|]. split; [reflexivity|]. split; [repeat split|].
  split. { split; [auto|]. intros r Hr. destruct r as [|[|]]; [| |cbn in Hr; lia]; cbn; unfold klen; cbn; intuition lia. }
  split; [apply even_out_ok|]. split; [apply even_out_ok|]. split; [apply built51|]. split; [vm_compute; reflexivity|].
  split; [vm_compute; reflexivity|]. split; [vm_compute; reflexivity|]. split; vm_compute; discriminate.
Qed.

(** ** GaussianGrad (every order, epsilon and p) and LaplacianOfGaussian of the evened image. *)
Theorem C131_gaussian_grad : forall fuel junk fuel' junk' ks sigma n p p' shared shared' (e e' : edge_filter RF) (x x' : tensor RF) ax ax' al eps pw,
  2 <= ks -> sigma <> 0%R -> 0 <= n ->
  gg_init (NItem ks) (NItem sigma) None None true n (Some p) shared = Ok e -> gg_init (NItem ks) (NItem sigma) None None true n (Some p') shared' = Ok e' ->
  edge_image (F := RF) fuel p MPeriodize x ax al (ks + 1) -> edge_image (F := RF) fuel' p' MCircular x' ax' al ks -> (2 <= length al)%nat ->
  evened (F := RF) al x x' ->
  exists y y', snd (magnitude (F := RF) Rtrunc fuel junk e x ax eps pw) = Ok y /\ snd (magnitude (F := RF) Rtrunc fuel' junk' e' x' ax' eps pw) = Ok y' /\
    teq y y' /\ shp y' = shp x'.
Proof. exact gauss_periodize. Qed.
Print Assumptions C131_gaussian_grad.
Theorem C131_laplacian_of_gaussian : forall fuel junk fuel' junk' ks sigma p p' shared shared' (e e' : edge_filter RF) (x x' : tensor RF) ax ax' al,
  2 <= ks -> sigma <> 0%R ->
  log_init (NItem ks) (NItem sigma) (Some p) shared = Ok e -> log_init (NItem ks) (NItem sigma) (Some p') shared' = Ok e' ->
  edge_image (F := RF) fuel p MPeriodize x ax al (ks + 1) -> edge_image (F := RF) fuel' p' MCircular x' ax' al ks -> (2 <= length al)%nat ->
  evened (F := RF) al x x' ->
  exists y y', snd (log_forward fuel junk e x ax) = Ok y /\ snd (log_forward fuel' junk' e' x' ax') = Ok y' /\ teq y y' /\ shp y' = shp x'.
Proof. exact log_periodize. Qed.
Print Assumptions C131_laplacian_of_gaussian.
Definition padR (m : mode RF) : padder RF := mkPadder (NItem (0, 0)) (NItem m) (NItem (0, 0)%R) (NItem (0, 0)%R) (NItem (None, None)) 0.
Definition ramp44 : tensor RF := mkT [4; 4] (fun i => IZR (Z.min 2 (nth 0 i 0) + 2 * Z.min 3 (nth 1 i 0))).
Lemma imageR (m : mode RF) (x : tensor RF) h k : fills m -> shp x = [h; 4] -> 3 <= h <= 4 -> k <= 6 -> edge_image (F := RF) 10 (padR m) m x AxNone [0%nat; 1%nat] k.
Proof.
  intros Hm Hx Hh Hk. assert (P : forall d, (d < ndim x)%nat -> 3 <= nth d (shp x) 0 <= 4) by (intros d Hd; unfold ndim in Hd; rewrite Hx in *; destruct d as [|[|d]]; cbn in *; lia). split.
  - split; [unfold ndim; rewrite Hx; reflexivity | intros a [<-|[<-|[]]]; unfold ndim; rewrite Hx; cbn; lia | repeat constructor; cbn; intuition lia].
  - intros d Hd. specialize (P d Hd). lia.
  - intros a [<-|[<-|[]]]; rewrite Hx; cbn; lia.
  - split; [reflexivity|]. split; [eexists; reflexivity|]. split; eexists; reflexivity.
  - exact Hm.
  - intros d Hd. specialize (P d Hd). lia.
Qed.
Example C131_gauss_example : exists e e',
  log_init (NItem 5) (NItem 2%R) (Some (padR MPeriodize)) true = Ok e /\ log_init (NItem 5) (NItem 2%R) (Some (padR MCircular)) true = Ok e' /\
  edge_image (F := RF) 10 (padR MPeriodize) MPeriodize ramp34 AxNone [0; 1]%nat (5 + 1) /\
  edge_image (F := RF) 10 (padR MCircular) MCircular ramp44 AxNone [0; 1]%nat 5 /\
  evened (F := RF) [0; 1]%nat ramp34 ramp44 /\ shp ramp34 = [3; 4] /\ shp ramp44 = [4; 4].
Proof.
  destruct (C47_builds 5 2 2 ltac:(lia) ltac:(lra) ltac:(lia)) as [k0 [k2 [A [B [C [D [_ E]]]]]]].
  destruct (E (Some (padR MPeriodize)) true) as [e He]. destruct (E (Some (padR MCircular)) true) as [e' He'].
  exists e, e'. split; [exact He|]. split; [exact He'|]. split; [apply (imageR _ _ 3); cbn; auto; lia|]. split; [apply (imageR _ _ 4); cbn; auto; lia|].
  split; [|split; reflexivity]. split; [reflexivity|]. split.
  - intros d Hd. cbn in Hd. destruct d as [|[|d]]; [reflexivity|reflexivity|lia].
  - intros i Vi. cbn [ramp44 ramp34 shp at_] in *. inversion Vi as [|? a ? i1 H1 V1]; subst. inversion V1 as [|? b ? i2 H2 V2]; subst. cbn [map2 nth]. reflexivity.
Qed.

(** ** UnsharpMask: RuntimeError as soon as an axis has grown from 3 or more; otherwise the sharpened evened image
    (an axis of length 1 is broadcast to length 2). *)
Theorem C131_unsharp : forall (F : ofield) fuel junk fuel' junk' (blur m : pool F) a t (u u' : unsharp F) (x x' : tensor F) ax ax' al kers p p' m' blur' A,
  to_filter blur (Some p) = Ok m -> unsharp_init blur BSep a t (Some p) = Ok u ->
  to_filter blur' (Some p') = Ok m' -> unsharp_init blur' BSep a t (Some p') = Ok u' ->
  check_axes (Z.of_nat (ndim x)) ax = Ok (map Z.of_nat al) -> check_axes (Z.of_nat (ndim x')) ax' = Ok (map Z.of_nat al) ->
  built (length al) kers (repeat 1 (length al)) (Some p) m -> built (length al) kers (repeat 1 (length al)) (Some p') m' ->
  same_call F fuel p x (AxSeq (map Z.of_nat al)) al (repeat MPeriodize (length al)) kers (repeat 1 (length al)) ->
  same_call F fuel' p' x' (AxSeq (map Z.of_nat al)) al (repeat MCircular (length al)) kers (repeat 1 (length al)) ->
  (forall a, In a A -> In a al) -> (forall r, (r < length al)%nat -> (In (nth r al 0%nat) A <-> 2 <= klen (nth r kers []))) ->
  evened A x x' ->
  ((forall c, In c A -> Z.even (nth c (shp x) 0) = true \/ nth c (shp x) 0 = 1) ->
     exists y y', snd (unsharp_forward fuel junk u x ax) = Ok y /\ snd (unsharp_forward fuel' junk' u' x' ax') = Ok y' /\ teq y y' /\ shp y' = shp x') /\
  ((exists c, In c A /\ Z.odd (nth c (shp x) 0) = true /\ nth c (shp x) 0 <> 1) -> snd (unsharp_forward fuel junk u x ax) = Err RuntimeError).
Proof. exact unsharp_periodize. Qed.
Print Assumptions C131_unsharp.
Lemma line_seq n (x : tensor QcF) m : shp x = [n] -> 1 <= n <= 5 -> fills m -> same_call QcF 9 (sym (0, 0) m) x (AxSeq [0]) [0%nat] [m] [k123] [1].
Proof.
  intros Hx Hn Hm. destruct (line_call n x k123 m Hx Hn ltac:(unfold klen; cbn; lia) Hm) as [[_ Q1 Q2] Q3 Q4 Q5 Q6 Q7 Q8 Q9].
  constructor; auto. split; auto. unfold ndim. rewrite Hx. reflexivity.
Qed.
Definition um m := mkUnsharp (pl k123 1 (Some (sym (0, 0) m))) BSep (qz 2) (qz 0).
Example C131_unsharp_example :
  let p := sym (0, 0) MPeriodize in let p' := sym (0, 0) MCircular in
  to_filter (pl k123 1 None) (Some p) = Ok (pl k123 1 (Some p)) /\ to_filter (pl k123 1 None) (Some p') = Ok (pl k123 1 (Some p')) /\
  unsharp_init (pl k123 1 None) BSep (qz 2) (qz 0) (Some p) = Ok (um MPeriodize) /\
  unsharp_init (pl k123 1 None) BSep (qz 2) (qz 0) (Some p') = Ok (um MCircular) /\
  built 1 [k123] [1] (Some p) (pl k123 1 (Some p)) /\ built 1 [k123] [1] (Some p') (pl k123 1 (Some p')) /\
  (forall n l, length l = Z.to_nat n -> 1 <= n <= 3 -> same_call QcF 9 p (ofz [n] l) (AxSeq [0]) [0%nat] [MPeriodize] [k123] [1]) /\
  (forall n l, length l = Z.to_nat n -> 1 <= n <= 3 -> same_call QcF 9 p' (even_out [0%nat] (ofz [n] l)) (AxSeq [0]) [0%nat] [MCircular] [k123] [1]) /\
  errof (snd (unsharp_forward 9 garbage (um MPeriodize) (ofz [3] [1; 5; 20]) AxNone)) = Some RuntimeError /\
  show (snd (unsharp_forward 9 garbage (um MPeriodize) (ofz [1] [5]) AxNone)) = Some ([2], zq [-45; -45]) /\
  show (snd (unsharp_forward 9 garbage (um MCircular) (ofz [2] [5; 5]) AxNone)) = Some ([2], zq [-45; -45]) /\
  show (snd (unsharp_forward 9 garbage (um MPeriodize) (ofz [2] [1; 7]) AxNone)) = Some ([2], zq [-57; -15]).
Proof.
  intros p p'. split; [reflexivity|]. split; [reflexivity|]. split; [reflexivity|]. split; [reflexivity|].
  split; [apply pl_built; [discriminate|lia]|]. split; [apply pl_built; [discriminate|lia]|].
  split; [intros n l _ Hn; apply (line_seq n); [reflexivity|lia|exact I]|].
  split; [intros n l _ Hn; apply (line_seq (n + n mod 2)); [reflexivity|pose proof (Z.mod_pos_bound n 2); lia|exact I]|].
  split; [vm_compute; reflexivity|]. split; [vm_compute; reflexivity|]. split; vm_compute; reflexivity.
Qed.
