(** Concrete SSIM calls, and calls for which C51-C54 fail. *)
From Coq Require Import QArith Qcanon.
From Verif Require Export ExampleUtil MsReal.
Open Scope Z_scope.

Definition kerA : list QcF := [qq 1 4; qq 1 2; qq 1 4].
Definition kerB : list QcF := [qq 1 2; qq 1 2].
Definition kers51 := [kerA; kerB].
Definition repl : padder QcF := pad1d (0, 0) MReplicate.
Definition filt51 pd := mkPool (NList [kerA; kerB]) (NList [3; 2]) (NItem 1) pd 2.
Definition s51 pd sample := mkSsim (filt51 pd) (qq 1 2) (qq 1 3) sample true.
(** Two 4 x 3 images. *)
Definition x51 := ofz [2; 4; 3] [1; 2; 3; 4; 5; 6; 7; 8; 9; 1; 2; 3;   0; 1; 0; 1; 0; 1; 0; 1; 0; 1; 0; 1].
Definition y51 := ofz [2; 4; 3] [1; 2; 3; 6; 5; 4; 7; 8; 9; 3; 2; 1;   1; 0; 1; 0; 1; 0; 1; 0; 1; 1; 1; 1].

Ltac ex_on := split; [vm_compute; reflexivity | apply all_lt; vm_compute; reflexivity | repeat constructor; cbn; intuition lia].
Ltac nats := let d := fresh in let H := fresh in intros d H; cbn in H;
  repeat (destruct d as [|d]; [cbn; try lia; auto | try (exfalso; lia)]).

Lemma built51 pd : built 2 kers51 [1; 1] pd (filt51 pd).
Proof.
  assert (B : built 2 kers51 [1; 2] pd (mkPool (NList [kerA; kerB]) (NList [3; 2]) (NList [1; 2]) pd 2)).
  { apply (built_init 2 [kerA; kerB] (NList [kerA; kerB]) (NList [Some 1; None]) [Some 1; None]); reflexivity. }
  assert (E : to_filter (mkPool (NList [kerA; kerB]) (NList [3; 2]) (NList [1; 2]) pd 2) pd = Ok (filt51 pd)) by (destruct pd; reflexivity).
  pose proof (built_filter _ _ _ _ _ pd _ B E) as Q. destruct pd; exact Q.
Qed.
Lemma same51 p : (exists m, p = pad1d (0, 0) m /\ fills m) -> exists ms, same_call QcF 20 p x51 (AxSeq [1; 2]) [1%nat; 2%nat] ms kers51 [1; 1].
Proof.
  intros [m [-> Hm]]. exists [m; m].
  split; [ex_on | unfold ndim; cbn; lia | nats | | nats | | |].
  - intros a [<-|[<-|[]]]; cbn; lia.
  - split; [reflexivity|discriminate|discriminate|discriminate].
  - intros k [<-|[<-|[]]]; exact Hm.
  - intros d k Hd Hk. assert (nth d (shp x51) 0 <= 5) by (cbn in Hd; repeat (destruct d as [|d]; [cbn; lia | try (exfalso; lia)])).
    destruct Hk as [->|[ker [[<-|[<-|[]]] ->]]]; unfold klen; cbn [kerA kerB length]; lia.
Qed.
Lemma call51 pd sample : (pd = None \/ exists p, pd = Some p /\ exists m, p = pad1d (0, 0) m /\ fills m) ->
  ssim_call 20 (s51 pd sample) x51 y51 (AxSlice (sfrom 1)) (AxSlice (sfrom 1)) [1%nat; 2%nat] [1%nat; 2%nat] kers51 pd.
Proof.
  intros Hp. split.
  - reflexivity.
  - ex_on.
  - ex_on.
  - apply built51.
  - destruct Hp as [->|[p [-> Hp]]]; [|now apply same51]. cbn [blur_call]. nats; unfold klen; cbn; lia.
  - intros _. nats; unfold klen; cbn; lia.
  - intros n [<-|[<-|[<-|[]]]]; lia.
  - intros _ E. discriminate.
Qed.

Definition show2 (r : res (tensor QcF * tensor QcF)) := match r with Ok (s, f) => (show (Ok s), show (Ok f)) | Err _ => (None, None) end.
Definition errof {A} (r : res A) : option err := match r with Ok _ => None | Err e => Some e end.
Lemma errof_some {A} (r : res A) e : errof r = Some e -> r = Err e.
Proof. destruct r; cbn; congruence. Qed.
Lemma show2_ok (r : res (tensor QcF * tensor QcF)) a b : show2 r = (Some a, Some b) -> exists s f, r = Ok (s, f) /\ show (Ok s) = Some a /\ show (Ok f) = Some b.
Proof. destruct r as [[s f]|]; cbn [show2]; [|discriminate]. intros E. exists s, f. split; auto. split; congruence. Qed.
Lemma show_ok (r : res (tensor QcF)) a : show r = Some a -> exists s, r = Ok s /\ show (Ok s) = Some a.
Proof. destruct r as [s|]; [|discriminate]. eauto. Qed.
(** Two tensors that are shown differently are different. *)
Lemma show_teq (s t : tensor QcF) : teq s t -> (forall i, In i (indices (shp s)) -> valid (shp s) i) -> show (Ok s) = show (Ok t).
Proof. intros [S V] H. cbn [show]. rewrite <- S. do 2 f_equal. apply map_ext_in. intros i Hi. now rewrite V by auto. Qed.
Lemma show_scalar (s : tensor QcF) q : show (Ok s) = Some ([], [q]) -> shp s = [] /\ this (at_ s []) = q.
Proof. cbn [show]. intros E. assert (S : shp s = []) by congruence. rewrite S in E. cbn in E. split; [exact S|]. injection E. auto. Qed.

(** *** one-dimensional images *)
Definition filt1 (k : list QcF) pd := mkPool (NItem k) (NItem (klen k)) (NItem 1) pd 0.
Definition s1 k pd K1 K2 sample crop := mkSsim (filt1 k pd) K1 K2 sample crop.
Lemma filt1_built k pd : built 1 [k] [1] pd (filt1 k pd).
Proof. apply (built_init 1 [k] (NItem k) (NItem (Some 1)) [Some 1]); reflexivity. Qed.
Lemma call1 k m K1 K2 sample crop (x y : tensor QcF) n : shp x = [n] -> shp y = [n] -> 1 <= n -> n <= 10 -> klen k <= n -> klen k <> 1 -> fills m ->
  ssim_call 20 (s1 k (Some (pad1d (0, 0) m)) K1 K2 sample crop) x y AxNone AxNone [0%nat] [0%nat] [k] (Some (pad1d (0, 0) m)).
Proof.
  intros Sx Sy Hn Hn' Hk Hk1 Hm.
  assert (OA : forall ax, ax = AxNone \/ ax = AxSeq [0] -> on_axes x ax [0%nat]).
  { intros ax H. split; [unfold ndim; rewrite Sx; destruct H as [-> | ->]; reflexivity|intros a [<-|[]]; unfold ndim; rewrite Sx; cbn; lia|repeat constructor; auto]. }
  split; try (apply OA; auto).
  - congruence.
  - apply filt1_built.
  - cbn [blur_call]. exists [m]. split; [apply OA; auto| | | | | | |].
    + unfold ndim. rewrite Sx. cbn. lia.
    + unfold ndim. rewrite Sx. nats.
    + intros a [<-|[]]. rewrite Sx. cbn. lia.
    + nats.
    + split; [reflexivity|discriminate|discriminate|discriminate].
    + intros q [<-|[]]. exact Hm.
    + unfold ndim. rewrite Sx. intros d z Hd Hz. destruct d; [|cbn in Hd; lia]. cbn [nth]. destruct Hz as [->|[ker [[<-|[]] ->]]]; lia.
  - intros _ r Hr. destruct r; [|cbn in Hr; lia]. cbn [nth]. rewrite Sx. exact Hk.
  - rewrite Sx. intros q [<-|[]]. exact Hn.
  - intros _. cbn. lia.
Qed.
Lemma windowA : window QcF [kerA].
Proof. intros k [<-|[]]. split; [right; vm_compute; now apply Qc_is_canon|]. intros e [<-|[<-|[<-|[]]]]; vm_compute; reflexivity. Qed.

(** Padding with the constants 7 and 8 makes the score exceed 1. *)
Definition pad78 : padder QcF := pad1d (0, 0) MConstant.
Lemma ssim_exceeds : exists (s : ssim QcF) (x y : tensor QcF) al rl kers pd score full,
  ssim_call 20 s x y AxNone AxNone al rl kers pd /\ window QcF kers /\ ss_K1 s <> f0 /\ ss_K2 s <> f0 /\
  snd (ssim_forward (sep_forward 20 garbage) x y AxNone AxNone s) = Ok (score, full) /\ ~ in_range (fopp f1) f1 score.
Proof.
  destruct (show2_ok (snd (ssim_forward (sep_forward 20 garbage) (ofz [3] [0; 0; 1]) (ofz [3] [0; 3; 0]) AxNone AxNone (s1 kerA (Some pad78) (qz 1) (qz 1) false false)))
    ([], [1672532720 # 1648518201]%Q) ([3], [3536 # 2255; 112 # 2915; 33040 # 22989]%Q)) as [score [full [E [S1 S2]]]]; [vm_compute; reflexivity|].
  exists (s1 kerA (Some pad78) (qz 1) (qz 1) false false), (ofz [3] [0; 0; 1]), (ofz [3] [0; 3; 0]), [0%nat], [0%nat], [kerA], (Some pad78), score, full.
  split; [apply (call1 kerA MConstant _ _ _ _ _ _ 3); cbn; try reflexivity; try lia; unfold klen; cbn; lia|].
  split; [apply windowA|]. split; [discriminate|]. split; [discriminate|]. split; [exact E|].
  intros C. destruct (show_scalar score _ S1) as [Sh V]. destruct (C []) as [_ H]; [rewrite Sh; constructor|].
  unfold fle in H. cbn [fleb QcF f1] in H. unfold Qc_leb in H. rewrite V in H. vm_compute in H. discriminate.
Qed.
(** With K2 = 0 there is no score for a constant image; nor with a window of one pixel and sample covariance. *)
Lemma ssim_no_score : exists (s : ssim QcF) (x : tensor QcF) al rl kers pd,
  ssim_call 20 s x x AxNone AxNone al rl kers pd /\ window QcF kers /\ proper_padder (length al) pd /\ ss_K1 s <> f0 /\
  snd (ssim_forward (sep_forward 20 garbage) x x AxNone AxNone s) = Err ZeroDivisionError.
Proof.
  exists (s1 kerA (Some repl) (qz 1) (qz 0) false true), (ofz [4] [5; 5; 5; 5]), [0%nat], [0%nat], [kerA], (Some repl).
  split; [apply (call1 kerA MReplicate _ _ _ _ _ _ 4); cbn; try reflexivity; try lia; try exact I; unfold klen; cbn; lia|].
  split; [apply windowA|]. split; [left; exists [MReplicate], [(qz 7, qz 8)], [(qz 0, qz 10)]; repeat split; try reflexivity; intros r Hr; destruct r; [exact I|cbn in Hr; lia]|].
  split; [discriminate|]. apply errof_some. vm_compute. reflexivity.
Qed.
(** periodize, odd length: the cropped map keeps a pixel that depends on the padding. *)
Definition perio : padder QcF := pad1d (0, 0) MPeriodize.
Lemma ssim_crop_periodize : exists (s s0 : ssim QcF) (x y : tensor QcF) al rl kers p score full score0 full0,
  ssim_call 20 s x y AxNone AxNone al rl kers (Some p) /\ ss_crop s = true /\ window QcF kers /\ proper_padder (length al) (Some p) /\
  built (length al) kers (repeat 1 (length al)) None (ss_blur s0) /\ same_settings QcF s s0 /\
  snd (ssim_forward (sep_forward 20 garbage) x y AxNone AxNone s) = Ok (score, full) /\
  snd (ssim_forward (sep_forward 20 garbage) x y AxNone AxNone s0) = Ok (score0, full0) /\ ~ teq score score0.
Proof.
  set (x := ofz [5] [0; 1; 3; 2; 5]). set (y := ofz [5] [1; 1; 2; 0; 4]).
  set (s := s1 kerA (Some perio) (qz 1) (qz 1) false true). set (s0 := s1 kerA None (qz 1) (qz 1) false true).
  destruct (show2_ok (snd (ssim_forward (sep_forward 20 garbage) x y AxNone AxNone s)) ([], [579993437 # 732765306]%Q)
    ([6], [10000 # 11211; 15 # 19; 795 # 1159; 800 # 1029; 37312 # 40859; 10759 # 12095]%Q)) as [score [full [E [S1 S2]]]]; [vm_compute; reflexivity|].
  destruct (show2_ok (snd (ssim_forward (sep_forward 20 garbage) x y AxNone AxNone s0)) ([], [141410 # 188307]%Q)
    ([3], [15 # 19; 795 # 1159; 800 # 1029]%Q)) as [score0 [full0 [E0 [S3 S4]]]]; [vm_compute; reflexivity|].
  exists s, s0, x, y, [0%nat], [0%nat], [kerA], perio, score, full, score0, full0.
  split; [apply (call1 kerA MPeriodize _ _ _ _ _ _ 5); cbn; try reflexivity; try lia; try exact I; unfold klen; cbn; lia|].
  split; [reflexivity|]. split; [apply windowA|].
  split; [left; exists [MPeriodize], [(qz 7, qz 8)], [(qz 0, qz 10)]; repeat split; try reflexivity; intros r Hr; destruct r; [exact I|cbn in Hr; lia]|].
  split; [apply filt1_built|]. split; [repeat split|]. split; [exact E|]. split; [exact E0|].
  intros [_ V]. destruct (show_scalar score _ S1) as [Sh1 V1]. destruct (show_scalar score0 _ S3) as [Sh3 V3].
  assert (Q : at_ score [] = at_ score0 []) by (apply V; rewrite Sh1; constructor).
  rewrite Q in V1. rewrite V1 in V3. discriminate.
Qed.

(** *** MS_SSIM *)
(** Powers with whole exponents. *)
Definition ipow (v w : QcF) : QcF := Qcpower v (Z.to_nat (Qnum (this w))).
Definition ms_of ws prod := mkMs (F := QcF) ws prod (qq 1 100).
Definition x54 := ofz [2; 7] [1; 2; 3; 5; 8; 2; 1;  0; 1; 0; 3; 0; 1; 0].
Definition y54 := ofz [2; 7] [2; 2; 3; 4; 8; 1; 1;  1; 1; 0; 2; 0; 1; 4].
Definition s54 pd := s1 kerB pd (qq 1 2) (qq 1 3) true true.
Lemma call54 pd (y : tensor QcF) : shp y = [2; 7] -> (pd = None \/ exists m, pd = Some (pad1d (0, 0) m) /\ fills m) ->
  ms_call 20 (s54 pd) x54 y (AxSlice (sfrom 1)) (AxSlice (sfrom 1)) [1%nat] [1%nat] [kerB] pd.
Proof.
  intros Sy Hp. split.
  - now rewrite Sy.
  - ex_on.
  - ex_on.
  - apply filt1_built.
  - intros k [<-|[]]. unfold klen. cbn. lia.
  - destruct Hp as [->|[m [-> Hm]]]; [exact I|]. exists [m]. split; [ex_on | unfold ndim; cbn; lia | nats | | nats | | |].
    + intros a [<-|[]]; cbn; lia.
    + split; [reflexivity|discriminate|discriminate|discriminate].
    + intros k [<-|[]]; exact Hm.
    + intros d k Hd Hk. assert (nth d (shp x54) 0 <= 7) by (cbn in Hd; repeat (destruct d as [|d]; [cbn; lia | try (exfalso; lia)])).
      destruct Hk as [->|[ker [[<-|[]] ->]]]; unfold klen; cbn [kerB length]; lia.
  - intros n [<-|[<-|[]]]; lia.
  - intros _ E. discriminate.
Qed.
Lemma windowB : window QcF [kerB].
Proof. intros k [<-|[]]. split; [right; vm_compute; now apply Qc_is_canon|]. intros e [<-|[<-|[]]]; vm_compute; reflexivity. Qed.
Lemma proper54 pd : (pd = None \/ pd = Some repl) -> proper_settings (s54 pd) [1%nat] [kerB] pd.
Proof.
  intros Hp. split; [apply windowB|]. split; [|split; discriminate]. destruct Hp as [-> | ->]; [exact I|].
  left. exists [MReplicate], [(qz 7, qz 8)], [(qz 0, qz 10)]. repeat split; try reflexivity. intros r Hr; destruct r; [exact I|cbn in Hr; lia].
Qed.
Lemma large54 : large_enough 2 [kerB] [1%nat] (shp x54).
Proof. intros r Hr. destruct r; [|cbn in Hr; lia]. unfold klen. cbn. lia. Qed.

(** An empty kernel passes the check, but an image of one pixel cannot be halved. *)
Lemma ms_empty_kernel : exists (s : ssim QcF) (m : msssim QcF) (x : tensor QcF) al kers,
  on_axes x AxNone al /\ built (length al) kers (repeat 1 (length al)) None (ss_blur s) /\ ss_K1 s <> f0 /\ ss_K2 s <> f0 /\
  (2 <= length (ms_weights m))%nat /\ large_enough (Z.of_nat (length (ms_weights m))) kers al (shp x) /\ (forall n, In n (shp x) -> 1 <= n) /\
  snd (ms_forward (sep_forward 20 garbage) ipow (avg_forward 20 garbage true) m x x AxNone AxNone s) = Err RuntimeError.
Proof.
  exists (s1 [] None (qz 1) (qz 1) false true), (ms_of [qz 1; qz 1] true), (ofz [1] [3]), [0%nat], [[]].
  split; [ex_on|]. split; [apply filt1_built|]. split; [discriminate|]. split; [discriminate|]. split; [cbn; lia|].
  split; [intros r Hr; destruct r; [cbn; lia|cbn in Hr; lia]|]. split; [intros n [<-|[]]; lia|]. apply errof_some. vm_compute. reflexivity.
Qed.
(** A single weight gives no score. *)
Lemma ms_one_weight : exists (s : ssim QcF) (m : msssim QcF) (x : tensor QcF) al rl kers pd,
  ms_call 20 s x x (AxSlice (sfrom 1)) (AxSlice (sfrom 1)) al rl kers pd /\ proper_settings s al kers pd /\
  ms_weights m <> [] /\ large_enough (Z.of_nat (length (ms_weights m))) kers al (shp x) /\ fle (ms_eps m) f1 /\ (forall w, In w (ms_weights m) -> ipow f1 w = f1) /\
  snd (ms_forward (sep_forward 20 garbage) ipow (avg_forward 20 garbage true) m x x (AxSlice (sfrom 1)) (AxSlice (sfrom 1)) s) = Err TypeError.
Proof.
  exists (s54 None), (ms_of [qz 1] true), x54, [1%nat], [1%nat], [kerB], None.
  split; [apply call54; auto|]. split; [apply proper54; auto|]. split; [discriminate|].
  split; [intros r Hr; destruct r; [unfold klen; cbn; lia|cbn in Hr; lia]|]. split; [reflexivity|].
  split; [intros w [<-|[]]; apply Qc_is_canon; reflexivity|]. apply errof_some. vm_compute. reflexivity.
Qed.
