(** C129: what padding, filters and edge filters do in mode periodize, for all lengths.

    Vocabulary (FilterPeriodize.v, LaplacePeriodize.v; PropsPad.v, PropsPool.v, PropsEdge.v):
    - [evened A x x']: x' is x with the last slice along every axis of A that has an odd length repeated once;
    - [pspot n t]: the pixel at offset t of an axis of length n in mode periodize: min(n - 1, t mod n') with n' the
      even number n or n + 1;
    - [second_diff F x a j]: x(t+1) - 2 x(t) + x(t-1) along axis a at t = j_a with offsets read by [pspot]. *)
From Coq Require Import QArith Qcanon.
From Verif Require Import LaplacePeriodize EdgeExample PropsEdge PropsEdge3 PropsMirror IndexLemmas EdgeLinear.
Open Scope Z_scope.

(** ** Periodize padding is circular padding of the evened image; axes padded by (0, 0) are left alone. *)
Theorem C129_pad : forall (F : ofield) fuel junk fuel' junk' (p p' : padder F) (x x' : tensor F) ax ax' al A,
  pad_call fuel p x ax al -> pad_call fuel' p' x' ax' al -> last_axes p' al = last_axes p al ->
  (forall a, In a (last_axes p al) -> exists q q', axis_par p (last_axes p al) a = Some q /\ axis_par p' (last_axes p al) a = Some q' /\
     ap_mode q = MPeriodize /\ ap_mode q' = MCircular /\ ap_before q' = ap_before q /\ ap_after q' = ap_after q /\
     0 <= ap_before q /\ 0 <= ap_after q /\ 1 <= nth a (shp x) 0 /\ (In a A <-> (ap_before q, ap_after q) <> (0, 0))) ->
  (forall a, In a A -> In a (last_axes p al)) -> evened A x x' ->
  exists y y', padder_forward fuel junk p x ax = Ok y /\ padder_forward fuel' junk' p' x' ax' = Ok y' /\ teq y y'.
Proof. exact pad_as_circular. Qed.
Print Assumptions C129_pad.
(** The evened image. *)
Definition even_out (A : list nat) (x : tensor QcF) : tensor QcF :=
  mkT (map (fun d => nth d (shp x) 0 + (if memb d A then nth d (shp x) 0 mod 2 else 0)) (seq 0 (ndim x)))
      (fun i => at_ x (map2 (fun n k => Z.min (n - 1) k) (shp x) i)).
Lemma even_out_ok A x : evened A x (even_out A x).
Proof.
  split; [unfold ndim, even_out; cbn [shp]; now rewrite map_length, seq_length|]. split; [|reflexivity].
  intros d Hd. unfold even_out. cbn [shp]. now rewrite nth_map_seq.
Qed.
Definition x35 := ofz [3; 5] [1; 2; 4; 8; 3; 3; 5; 9; 10; 7; 20; 30; 50; 51; 60].
Example C129_pad_example :
  let p := pad2 (1, 2) (0, 0) MPeriodize MPeriodize in let p' := pad2 (1, 2) (0, 0) MCircular MCircular in
  pad_call 20 p x35 AxNone [0; 1]%nat /\ pad_call 20 p' (even_out [0%nat] x35) AxNone [0; 1]%nat /\ evened [0%nat] x35 (even_out [0%nat] x35) /\
  (forall a, In a (last_axes p [0; 1]%nat) -> exists q q', axis_par p (last_axes p [0; 1]%nat) a = Some q /\ axis_par p' (last_axes p [0; 1]%nat) a = Some q' /\
     ap_mode q = MPeriodize /\ ap_mode q' = MCircular /\ ap_before q' = ap_before q /\ ap_after q' = ap_after q /\
     0 <= ap_before q /\ 0 <= ap_after q /\ 1 <= nth a (shp x35) 0 /\ (In a [0%nat] <-> (ap_before q, ap_after q) <> (0, 0))) /\
  show (padder_forward 20 garbage p x35 AxNone) = Some ([7; 5], zq
    [20; 30; 50; 51; 60; 1; 2; 4; 8; 3; 3; 5; 9; 10; 7; 20; 30; 50; 51; 60; 20; 30; 50; 51; 60; 1; 2; 4; 8; 3; 3; 5; 9; 10; 7]).
Proof.
  intros p p'. split; [ex_call|]. split; [ex_call|]. split; [apply even_out_ok|]. split.
  - intros a [<-|[<-|[]]]; do 2 eexists; (split; [reflexivity|]); (split; [reflexivity|]); (split; [reflexivity|]); (split; [reflexivity|]);
      (split; [reflexivity|]); (split; [reflexivity|]); cbn; (split; [lia|]); (split; [lia|]); (split; [lia|]).
    + split; [intros _; discriminate|auto].
    + split; [intros [?|[]]; discriminate|intros H; exfalso; apply H; reflexivity].
  - vm_compute. reflexivity.
Qed.

(** ** A filter with periodize padding in closed form, and as a filter with circular padding of the evened image. *)
Theorem C129_closed_form : forall (F : ofield) fuel junk (f : pool F) (x : tensor F) ax al kers p,
  built (length al) kers (repeat 1 (length al)) (Some p) f ->
  same_call F fuel p x ax al (repeat MPeriodize (length al)) kers (repeat 1 (length al)) ->
  exists y, snd (sep_forward fuel junk f x ax) = Ok y /\ ndim y = ndim x /\
    (forall r, (r < length al)%nat -> nth (nth r al 0%nat) (shp y) 0 = even_up (klen (nth r kers [])) (nth (nth r al 0%nat) (shp x) 0)) /\
    (forall d, ~ In d al -> nth d (shp y) 0 = nth d (shp x) 0) /\
    forall j, valid (shp y) j -> at_ y j = bsum (map klen (map eff_kernel kers)) (fun o =>
      fmul (weight (map eff_kernel kers) o) (at_ x (glance al (map klen (map eff_kernel kers)) (shp x) j o))).
Proof. exact filter_periodize. Qed.
Print Assumptions C129_closed_form.
Theorem C129_filter : forall (F : ofield) fuel junk fuel' junk' (f f' : pool F) (x x' : tensor F) ax ax' al kers p p' A,
  built (length al) kers (repeat 1 (length al)) (Some p) f -> built (length al) kers (repeat 1 (length al)) (Some p') f' ->
  same_call F fuel p x ax al (repeat MPeriodize (length al)) kers (repeat 1 (length al)) ->
  same_call F fuel' p' x' ax' al (repeat MCircular (length al)) kers (repeat 1 (length al)) ->
  (forall a, In a A -> In a al) -> (forall r, (r < length al)%nat -> (In (nth r al 0%nat) A <-> 2 <= klen (nth r kers []))) ->
  evened A x x' ->
  exists y y', snd (sep_forward fuel junk f x ax) = Ok y /\ snd (sep_forward fuel' junk' f' x' ax') = Ok y' /\ teq y y' /\ shp y' = shp x'.
Proof. exact filter_as_circular. Qed.
Print Assumptions C129_filter.
Lemma line_call n (x : tensor QcF) k m : shp x = [n] -> 1 <= n <= 5 -> klen k <= 3 -> fills m -> same_call QcF 9 (sym (0, 0) m) x (AxInt 0) [0%nat] [m] [k] [1].
Proof.
  intros Hx Hn Hk Hm. split.
  - split; [unfold ndim; rewrite Hx; reflexivity|intros a [<-|[]]; unfold ndim; rewrite Hx; cbn; lia|repeat constructor; intros []].
  - unfold ndim. rewrite Hx. cbn. lia.
  - intros [|d] Hd; rewrite Hx; cbn; [lia|unfold ndim in Hd; rewrite Hx in Hd; cbn in Hd; lia].
  - intros a [<-|[]]. rewrite Hx. cbn. lia.
  - intros [|r] Hr; cbn in *; lia.
  - split; [reflexivity|discriminate|discriminate|discriminate].
  - intros m' [<-|[]]. auto.
  - intros [|d] k' Hd H; [|unfold ndim in Hd; rewrite Hx in Hd; cbn in Hd; lia]. rewrite Hx. cbn [nth]. destruct H as [->|[ker [[<-|[]] ->]]]; lia.
Qed.
Example C129_filter_example :
  let f := pl k123 1 (Some (sym (0, 0) MPeriodize)) in let f' := pl k123 1 (Some (sym (0, 0) MCircular)) in
  let x := ofz [3] [1; 5; 20] in
  built 1 [k123] [1] (Some (sym (0, 0) MPeriodize)) f /\ built 1 [k123] [1] (Some (sym (0, 0) MCircular)) f' /\
  same_call QcF 9 (sym (0, 0) MPeriodize) x (AxInt 0) [0%nat] [MPeriodize] [k123] [1] /\
  same_call QcF 9 (sym (0, 0) MCircular) (even_out [0%nat] x) (AxInt 0) [0%nat] [MCircular] [k123] [1] /\
  evened [0%nat] x (even_out [0%nat] x) /\ 2 <= klen k123 /\
  show (Ok (even_out [0%nat] x)) = Some ([4], zq [1; 5; 20; 20]) /\
  show (snd (sep_forward 9 garbage f x (AxInt 0))) = Some ([4], zq [37; 71; 105; 63]) /\
  show (snd (sep_forward 9 garbage f' (even_out [0%nat] x) (AxInt 0))) = Some ([4], zq [37; 71; 105; 63]).
Proof.
  intros f f' x. split; [apply pl_built; [discriminate|lia]|]. split; [apply pl_built; [discriminate|lia]|].
  split; [apply (line_call 3); [reflexivity|lia|unfold klen; cbn; lia|exact I]|]. split; [apply (line_call 4); [reflexivity|lia|unfold klen; cbn; lia|exact I]|].
  split; [apply even_out_ok|]. split; [unfold klen; cbn; lia|].
  split; [vm_compute; reflexivity|]. split; vm_compute; reflexivity.
Qed.

(** ** Components of an edge filter; the axes in A are exactly those along which the kernel has two or more elements. *)
Theorem C129_component : forall (F : ofield) (trunc : F -> Z) fuel junk fuel' junk' ker smooth raw normalize p p' shared shared' (e e' : edge_filter F) (x x' : tensor F)
    ea ax sx ax' sx' c al k A,
  edge_init (NItem ker) smooth normalize (Some p) shared = Ok e -> edge_init (NItem ker) smooth normalize (Some p') shared' = Ok e' -> ker <> [] ->
  check_axes (Z.of_nat (ndim x)) ea = Ok [Z.of_nat c] -> In c al ->
  edge_image fuel p MPeriodize x ax al (k + 1) -> edge_image fuel' p' MCircular x' ax' al k ->
  check_axes (Z.of_nat (ndim x)) sx = Ok (map Z.of_nat al) -> check_axes (Z.of_nat (ndim x)) sx' = Ok (map Z.of_nat al) -> klen ker <= k ->
  expand (length (without c al)) smooth = Some raw -> (forall u, In u raw -> klen u <= k) ->
  (forall a, In a A -> In a al) -> (In c A <-> 2 <= klen ker) ->
  (forall r, (r < length (without c al))%nat -> (In (nth r (without c al) 0%nat) A <-> 2 <= klen (nth r raw []))) ->
  evened A x x' ->
  exists y y', snd (component trunc fuel junk e x ea sx) = Ok y /\ snd (component trunc fuel' junk' e' x' ea sx') = Ok y' /\ teq y y' /\ shp y' = shp x'.
Proof. exact component_as_circular. Qed.
Print Assumptions C129_component.
(** ** The magnitude of a filter that smooths along every axis. *)
Theorem C129_magnitude : forall (F : ofield) (trunc : F -> Z) fuel junk fuel' junk' ker smooth raw normalize p p' shared shared' (e e' : edge_filter F) (x x' : tensor F)
    ax ax' al k eps pw,
  edge_init (NItem ker) smooth normalize (Some p) shared = Ok e -> edge_init (NItem ker) smooth normalize (Some p') shared' = Ok e' ->
  edge_image fuel p MPeriodize x ax al (k + 1) -> edge_image fuel' p' MCircular x' ax' al k -> (2 <= length al)%nat ->
  2 <= klen ker <= k ->
  (forall c, In c al -> expand (length (without c al)) smooth = Some (raw c)) ->
  (forall c u, In c al -> In u (raw c) -> 2 <= klen u <= k) ->
  evened al x x' ->
  exists y y', snd (magnitude trunc fuel junk e x ax eps pw) = Ok y /\ snd (magnitude trunc fuel' junk' e' x' ax' eps pw) = Ok y' /\ teq y y' /\ shp y' = shp x'.
Proof. exact magnitude_as_circular. Qed.
Print Assumptions C129_magnitude.
Lemma small_image m h w (x : tensor QcF) k : fills m -> shp x = [h; w] -> 1 <= h <= 6 -> 1 <= w <= 6 -> k <= 10 -> edge_image 16 (evenp 0 m) m x AxNone [0%nat; 1%nat] k.
Proof.
  intros Hm Hx Hh Hw Hk.
  assert (P : forall d, (d < ndim x)%nat -> 1 <= nth d (shp x) 0 <= 6).
  { intros d Hd. unfold ndim in Hd. rewrite Hx in *. destruct d as [|[|d]]; cbn in *; lia. }
  split.
  - split; [unfold ndim; rewrite Hx; reflexivity|intros a [<-|[<-|[]]]; unfold ndim; rewrite Hx; cbn; lia|repeat constructor; intros [E|[]] || intros []; discriminate].
  - intros d H. specialize (P d H). lia.
  - intros d H. assert (D : (d < ndim x)%nat) by (unfold ndim; rewrite Hx; destruct H as [<-|[<-|[]]]; cbn; lia). specialize (P d D). lia.
  - split; [reflexivity|]. split; [eexists; reflexivity|]. split; eexists; reflexivity.
  - exact Hm.
  - intros d H. specialize (P d H). lia.
Qed.
Example C129_edge_example : exists e e' : edge_filter QcF,
  edge_init (NItem central_kernel) (NItem (ints [1; 2; 1])) false (Some (evenp 0 MPeriodize)) true = Ok e /\
  edge_init (NItem central_kernel) (NItem (ints [1; 2; 1])) false (Some (evenp 0 MCircular)) true = Ok e' /\
  edge_image 16 (evenp 0 MPeriodize) MPeriodize x35 AxNone [0; 1]%nat (3 + 1) /\
  edge_image 16 (evenp 0 MCircular) MCircular (even_out [0; 1]%nat x35) AxNone [0; 1]%nat 3 /\
  2 <= klen (@central_kernel QcF) <= 3 /\ 2 <= klen (ints [1; 2; 1] : list QcF) <= 3 /\
  expand 1 (NItem (ints [1; 2; 1] : list QcF)) = Some [ints [1; 2; 1]] /\ evened [0; 1]%nat x35 (even_out [0; 1]%nat x35) /\
  let c := [-112; -108; -148; -176; -200; -176; 123; 121; 163; 189; 214; 190; 112; 108; 148; 176; 200; 176; -123; -121; -163; -189; -214; -190] in
  let m := [-146; -66; -110; -170; -204; -224; 88; 166; 200; 194; 212; 140; 20; 204; 216; 204; 224; 52; -214; -28; -94; -160; -192; -312] in
  show (snd (component qtrunc 16 garbage e x35 (AxInt 0) AxNone)) = Some ([4; 6], zq c) /\
  show (snd (component qtrunc 16 garbage e' (even_out [0; 1]%nat x35) (AxInt 0) AxNone)) = Some ([4; 6], zq c) /\
  show (snd (magnitude qtrunc 16 garbage e x35 AxNone f0 P1)) = Some ([4; 6], zq m) /\
  show (snd (magnitude qtrunc 16 garbage e' (even_out [0; 1]%nat x35) AxNone f0 P1)) = Some ([4; 6], zq m).
Proof.
  destruct (named_ok QcF false (Some (evenp 0 MPeriodize)) true) as [[e He] _]. destruct (named_ok QcF false (Some (evenp 0 MCircular)) true) as [[e' He'] _]. exists e, e'.
  split; [eapply named_init; now apply n_sobel|]. split; [eapply named_init; now apply n_sobel|].
  split; [apply (small_image MPeriodize 3 5); [exact I|reflexivity|lia|lia|lia]|]. split; [apply (small_image MCircular 4 6); [exact I|reflexivity|lia|lia|lia]|].
  split; [unfold klen; cbn; lia|]. split; [unfold klen; cbn; lia|]. split; [reflexivity|]. split; [apply even_out_ok|].
  rewrite (get_ok filter0 _ _ He), (get_ok filter0 _ _ He'). clear He He'. cbv zeta.
  repeat (match goal with |- _ /\ _ => split; [vm_compute; reflexivity|] end). vm_compute. reflexivity.
Qed.

(** ** Magnitudes of components whose shapes differ: the later components are added to the first one in place, so each
    of them must be expandable to its shape. *)
Theorem C129_shapes : forall (F : ofield) (trunc : F -> Z) fuel junk ker smooth normalize pd shared (e : edge_filter F) (x : tensor F) ax a1 rest eps p (cs : nat -> tensor F),
  edge_init (NItem ker) smooth normalize pd shared = Ok e ->
  check_axes (Z.of_nat (ndim x)) ax = Ok (map Z.of_nat (a1 :: rest)) -> rest <> [] ->
  (forall a, In a (a1 :: rest) -> snd (component trunc fuel junk e x (AxInt (Z.of_nat a)) (AxSeq (map Z.of_nat (a1 :: rest)))) = Ok (cs a)) ->
  (p = P1 -> ker <> []) ->
  ((forall a, In a rest -> expandable (shp (cs a)) (shp (cs a1)) = true) ->
   exists m, snd (magnitude trunc fuel junk e x ax eps p) = Ok m /\ shp m = shp (cs a1) /\
     forall i, valid (shp m) i -> at_ m i =
       take_root F p (fadd (axis_sum (fun a => raise_to F p (at_ (cs a) (bidx (shp (cs a)) i))) (a1 :: rest)) eps)) /\
  ((exists a, In a rest /\ expandable (shp (cs a)) (shp (cs a1)) = false) ->
   snd (magnitude trunc fuel junk e x ax eps p) = Err RuntimeError).
Proof. exact magnitude_any. Qed.
Print Assumptions C129_shapes.
(** ** The Laplace filter, which does not smooth: it needs even lengths, or a first axis of length 1. *)
Theorem C129_laplace : forall (F : ofield) (trunc : F -> Z) fuel junk p shared (e : edge_filter F) (x : tensor F) ax a1 rest, truncates trunc ->
  laplace_init (Some p) shared = Ok e -> edge_image fuel p MPeriodize x ax (a1 :: rest) 4 -> rest <> [] ->
  let ev a := Z.even (nth a (shp x) 0) = true in
  ((forall a, In a (a1 :: rest) -> ev a) ->
   exists y, snd (laplace_forward trunc fuel junk e x ax) = Ok y /\ shp y = shp x /\
     forall j, valid (shp y) j -> at_ y j = axis_sum (fun a => second_diff F x a j) (a1 :: rest)) /\
  (nth a1 (shp x) 0 = 1 -> (forall a, In a rest -> ev a) ->
   exists y, snd (laplace_forward trunc fuel junk e x ax) = Ok y /\ shp y = upd a1 2 (shp x) /\
     forall j, valid (shp y) j -> at_ y j = axis_sum (fun a => second_diff F x a (upd a1 0 j)) rest) /\
  (~ (forall a, In a (a1 :: rest) -> ev a) -> ~ (nth a1 (shp x) 0 = 1 /\ forall a, In a rest -> ev a) ->
   snd (laplace_forward trunc fuel junk e x ax) = Err RuntimeError).
Proof. exact laplace_periodize. Qed.
Print Assumptions C129_laplace.
Example C129_laplace_example : exists e : edge_filter QcF,
  truncates qtrunc /\ laplace_init (Some (evenp 0 MPeriodize)) true = Ok e /\
  let even := ofz [2; 4] [1; 2; 4; 8; 3; 5; 9; 20] in let one := ofz [1; 4] [1; 2; 4; 8] in
  edge_image 16 (evenp 0 MPeriodize) MPeriodize even AxNone [0; 1]%nat 4 /\ edge_image 16 (evenp 0 MPeriodize) MPeriodize one AxNone [0; 1]%nat 4 /\
  edge_image 16 (evenp 0 MPeriodize) MPeriodize x35 AxNone [0; 1]%nat 4 /\
  show (snd (laplace_forward qtrunc 16 garbage e even AxNone)) = Some ([2; 4], zq [12; 7; 12; 13; 15; -4; -3; -52]) /\
  show (snd (laplace_forward qtrunc 16 garbage e one AxNone)) = Some ([2; 4], zq [8; 1; 2; -11; 8; 1; 2; -11]) /\
  snd (laplace_forward qtrunc 16 garbage e x35 AxNone) = Err RuntimeError /\
  snd (laplace_forward qtrunc 16 garbage e (ofz [4; 1] [1; 2; 4; 8]) AxNone) = Err RuntimeError.
Proof.
  destruct (named_ok QcF true (Some (evenp 0 MPeriodize)) true) as [_ [_ [_ [_ [e He]]]]]. exists e. split; [apply qtrunc_ok|]. split; auto. cbv zeta.
  split; [apply (small_image MPeriodize 2 4); [exact I|reflexivity|lia|lia|lia]|]. split; [apply (small_image MPeriodize 1 4); [exact I|reflexivity|lia|lia|lia]|].
  split; [apply (small_image MPeriodize 3 5); [exact I|reflexivity|lia|lia|lia]|].
  rewrite (get_ok filter0 _ _ He). clear He.
  split; [vm_compute; reflexivity|]. split; [vm_compute; reflexivity|]. split; vm_compute; reflexivity.
Qed.
