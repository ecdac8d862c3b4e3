(** C109: laws of unsharp masking.

    Vocabulary (SharpenLaws.v; PropsEdge.v, PropsPool.v, PropsMirror.v):
    - [sharpens fuel blur pd x ax al kers p ms]: blur is a SeparablePool with the kernels kers for the axes al
      that ax selects on x, p is pd, or the padder of blur if pd is None, and p has the modes ms and can pad x;
      periodize is excluded (it changes odd sizes);
    - [flipped d x x']: x' is x read backwards along axis d;
    - [combination c d x z w]: w = c * x + d * z;
    - [linear_mode], [const_mode], [range_mode lo hi]: the padding mode is linear, keeps constants, keeps the range. *)
From Coq Require Import QArith Qcanon.
From Verif Require Import SharpenLaws EdgeFlip EdgeExample PropsEdge PropsEdge3 IndexLemmas.
Open Scope Z_scope.

(** Scaling by s and adding c commutes with unsharp masking if the threshold is scaled by |s|. *)
Theorem C109_affine : forall (F : ofield) fuel junk (blur : pool F) pd (x x' : tensor F) ax al kers p ms a t u u' s c,
  sharpens fuel blur pd x ax al kers p ms ->
  every_axis (length al) p linear_mode -> every_axis (length al) p const_mode -> (forall k, In k kers -> k = [] \/ wsum k = f1) ->
  unsharp_init blur BSep a t pd = Ok u -> unsharp_init blur BSep a (fmul (fabs s) t) pd = Ok u' ->
  shp x' = shp x -> (forall i, valid (shp x) i -> at_ x' i = fadd (fmul s (at_ x i)) c) ->
  exists y y', snd (unsharp_forward fuel junk u x ax) = Ok y /\ snd (unsharp_forward fuel junk u' x' ax) = Ok y' /\ shp y = shp x /\ shp y' = shp x /\
    forall i, valid (shp x) i -> at_ y' i = fadd (fmul s (at_ y i)) c.
Proof. exact unsharp_affine. Qed.
Print Assumptions C109_affine.
(** Without a threshold unsharp masking is linear in the image. *)
Theorem C109_linear : forall (F : ofield) fuel junk (blur : pool F) pd (x z w : tensor F) ax al kers p ms a t u c d,
  sharpens fuel blur pd x ax al kers p ms ->
  every_axis (length al) p linear_mode -> unsharp_init blur BSep a t pd = Ok u -> fle t f0 -> combination c d x z w ->
  exists y1 y2 y3, snd (unsharp_forward fuel junk u x ax) = Ok y1 /\ snd (unsharp_forward fuel junk u z ax) = Ok y2 /\
    snd (unsharp_forward fuel junk u w ax) = Ok y3 /\ shp y1 = shp x /\ combination c d y1 y2 y3.
Proof. exact unsharp_linear. Qed.
Print Assumptions C109_linear.
(** Sharpening the mirror image gives the mirrored sharpened image. *)
Theorem C109_mirror : forall (F : ofield) fuel junk junk' (blur : pool F) pd (x x' : tensor F) ax al kers p ms a t u d,
  sharpens fuel blur pd x ax al kers p ms -> unsharp_init blur BSep a t pd = Ok u -> mirror_values d al p p ->
  (forall r, (r < length al)%nat -> nth r al 0%nat = d -> rev (nth r kers []) = nth r kers [] /\ (nth r kers [] = [] \/ klen (nth r kers []) mod 2 = 1)) ->
  (d < ndim x)%nat -> flipped d x x' ->
  exists y y', snd (unsharp_forward fuel junk u x ax) = Ok y /\ snd (unsharp_forward fuel junk' u x' ax) = Ok y' /\ shp y = shp x /\ flipped d y y'.
Proof. exact unsharp_mirror. Qed.
Print Assumptions C109_mirror.
(** The result leaves the range [lo, hi] by at most amount * (hi - lo); a threshold above hi - lo changes nothing. *)
Theorem C109_range : forall (F : ofield) fuel junk (blur : pool F) pd (x : tensor F) ax al kers p ms a t u lo hi,
  sharpens fuel blur pd x ax al kers p ms -> unsharp_init blur BSep a t pd = Ok u -> every_axis (length al) p (range_mode lo hi) ->
  (forall k, In k kers -> k = [] \/ wsum k = f1) -> (forall k e, In k kers -> In e k -> fle f0 e) -> in_range lo hi x -> fle f0 a ->
  exists y, snd (unsharp_forward fuel junk u x ax) = Ok y /\ shp y = shp x /\
    in_range (fsub lo (fmul a (fsub hi lo))) (fadd hi (fmul a (fsub hi lo))) y /\
    (flt f0 t -> flt (fsub hi lo) t -> teq y x).
Proof. exact unsharp_range. Qed.
Print Assumptions C109_range.
(** Amount -1 without a threshold gives the blurred image. *)
Theorem C109_blur : forall (F : ofield) fuel junk (blur : pool F) pd (x : tensor F) ax al kers p ms t u,
  sharpens fuel blur pd x ax al kers p ms -> unsharp_init blur BSep (fopp f1) t pd = Ok u -> fle t f0 ->
  exists b y, snd (sep_forward fuel junk (um_blur u) x (AxSeq (map Z.of_nat al))) = Ok b /\ snd (unsharp_forward fuel junk u x ax) = Ok y /\ teq y b.
Proof. exact unsharp_minus_one. Qed.
Print Assumptions C109_blur.

Definition mask a t : unsharp QcF := mkUnsharp (mkPool (NItem kerA) (NItem 3) (NItem 1) (Some (evenp 0 MReplicate)) 0) BSep a t.
Lemma sharpens34 : sharpens 16 (blurA None) (Some (evenp 0 MReplicate)) x34 AxNone [0; 1]%nat [kerA; kerA] (evenp 0 MReplicate) [MReplicate; MReplicate].
Proof.
  split.
  - exists [3; 3], None. split; [|reflexivity]. apply (built_init 2 [kerA; kerA] (NItem kerA) (NItem (Some 3)) [Some 3; Some 3]); reflexivity.
  - reflexivity.
  - apply (edge_image_call QcF 16 (evenp 0 MReplicate) MReplicate x34 AxNone [0; 1]%nat 3 (AxSeq [0; 1]) [0; 1]%nat [kerA; kerA]);
      [apply even34; [exact I|lia]|unfold ndim; cbn; lia|reflexivity|intros b Hb; exact Hb|repeat constructor; cbn; intuition lia|lia|intros k [<-|[<-|[]]]; unfold klen; cbn; lia].
  - intros [H|[H|[]]]; discriminate H.
Qed.
(** x34, its mirror image, and 10 - 2 * x34 with the threshold doubled. *)
Example C109_example :
  sharpens 16 (blurA None) (Some (evenp 0 MReplicate)) x34 AxNone [0; 1]%nat [kerA; kerA] (evenp 0 MReplicate) [MReplicate; MReplicate] /\
  (forall a t, unsharp_init (blurA None) BSep a t (Some (evenp 0 MReplicate)) = Ok (mask a t)) /\
  every_axis 2 (evenp 0 MReplicate) linear_mode /\ every_axis 2 (evenp 0 MReplicate) const_mode /\ every_axis 2 (evenp 0 MReplicate) (range_mode (qz 1) (qz 51)) /\
  wsum kerA = f1 /\ (forall k e, In k [kerA; kerA] -> In e k -> fle f0 e) /\ in_range (qz 1) (qz 51) x34 /\
  rev kerA = kerA /\ mirror_values 1 [0; 1]%nat (evenp 0 MReplicate) (evenp 0 MReplicate) /\ flipped 1 x34 m34 /\
  show (snd (unsharp_forward 16 garbage (mask (qz 2) (qq 3 2)) x34 AxNone)) =
    Some ([3; 4], [1; 2; 4; 8; -51 # 8; -63 # 8; -49 # 8; -69 # 8; 49 # 2; 77 # 2; 78; 72]%Q) /\
  show (snd (unsharp_forward 16 garbage (mask (qz 2) (qq 3 2)) m34 AxNone)) =
    Some ([3; 4], [8; 4; 2; 1; -69 # 8; -49 # 8; -63 # 8; -51 # 8; 72; 78; 77 # 2; 49 # 2]%Q) /\
  show (snd (unsharp_forward 16 garbage (mask (qz 2) (qz 3)) (mkT [3; 4] (fun i => fadd (fmul (qz (-2)) (at_ x34 i)) (qz 10))) AxNone)) =
    Some ([3; 4], [8; 6; 2; -6; 91 # 4; 103 # 4; 89 # 4; 109 # 4; -39; -67; -146; -134]%Q) /\
  show (snd (unsharp_forward 16 garbage (mask (qz 2) (qz 51)) x34 AxNone)) = show (Ok x34).
Proof.
  split; [exact sharpens34|]. split; [reflexivity|].
  split; [exists [MReplicate; MReplicate], [(qz 0, qz 0); (qz 0, qz 0)], [(qz 0, qz 0); (qz 0, qz 0)]; do 3 (split; [reflexivity|]); intros [|[|r]] Hr; cbn; auto; lia|].
  split; [exists [MReplicate; MReplicate], [(qz 0, qz 0); (qz 0, qz 0)], [(qz 0, qz 0); (qz 0, qz 0)]; do 3 (split; [reflexivity|]); intros [|[|r]] Hr; cbn; auto; lia|].
  split; [exists [MReplicate; MReplicate], [(qz 0, qz 0); (qz 0, qz 0)], [(qz 0, qz 0); (qz 0, qz 0)]; do 3 (split; [reflexivity|]); intros [|[|r]] Hr; cbn; auto; lia|].
  split; [apply Qc_is_canon; vm_compute; reflexivity|].
  split; [intros k e [<-|[<-|[]]] He; (destruct He as [<-|[<-|[<-|[]]]]; vm_compute; reflexivity)|].
  split; [intros i V; apply valid2 in V as [k [l [-> [Hk Hl]]]]; assert (k = 0 \/ k = 1 \/ k = 2) as [->|[->| ->]] by lia;
    (assert (l = 0 \/ l = 1 \/ l = 2 \/ l = 3) as [->|[->|[->| ->]]] by lia); split; vm_compute; reflexivity|].
  split; [reflexivity|]. split; [apply even_mirror, evenp_even|]. split; [apply m34_flipped|].
  repeat (match goal with |- _ /\ _ => split; [vm_compute; reflexivity|] end). vm_compute. reflexivity.
Qed.
(** With the same threshold for both images scaling does not commute: a difference of 13/16 stays below 3/2,
    ten times it does not. *)
Theorem C109_same_threshold_differs : exists (x x' y y' : tensor QcF),
  sharpens 16 (blurA None) (Some (evenp 0 MReplicate)) x AxNone [0; 1]%nat [kerA; kerA] (evenp 0 MReplicate) [MReplicate; MReplicate] /\
  shp x' = shp x /\ (forall i, at_ x' i = fmul (qz 10) (at_ x i)) /\
  snd (unsharp_forward 16 garbage (mask (qz 2) (qq 3 2)) x AxNone) = Ok y /\ snd (unsharp_forward 16 garbage (mask (qz 2) (qq 3 2)) x' AxNone) = Ok y' /\
  valid (shp x) [0; 0] /\ at_ y [0; 0] = qz 1 /\ at_ y' [0; 0] = qq (-25) 4.
Proof.
  set (x' := mkT [3; 4] (fun i => fmul (qz 10) (at_ x34 i))).
  assert (SH : sharpens 16 (blurA None) (Some (evenp 0 MReplicate)) x' AxNone [0; 1]%nat [kerA; kerA] (evenp 0 MReplicate) [MReplicate; MReplicate]).
  { destruct sharpens34 as [A B C D]. split; auto. eapply same_call_shape; [|exact C]. reflexivity. }
  destruct (sharpens_run QcF 16 garbage _ _ _ _ _ _ _ _ (qz 2) (qq 3 2) _ sharpens34 eq_refl) as [_ [b [y [_ [_ [E1 _]]]]]].
  destruct (sharpens_run QcF 16 garbage _ _ _ _ _ _ _ _ (qz 2) (qq 3 2) _ SH eq_refl) as [_ [b' [y' [_ [_ [E2 _]]]]]].
  exists x34, x'.
  exists y, y'. split; [exact sharpens34|]. do 2 (split; [reflexivity|]). split; [exact E1|]. split; [exact E2|]. split; [repeat constructor; cbn; lia|]. split.
  - rewrite (get_ok x34 _ _ E1). apply Qc_is_canon. vm_compute. reflexivity.
  - rewrite (get_ok x34 _ _ E2). apply Qc_is_canon. vm_compute. reflexivity.
Qed.
Print Assumptions C109_same_threshold_differs.
