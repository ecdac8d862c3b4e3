(** C137: averaging the blocks that tile two images.

    Vocabulary: [on_axes], [expand], [avg_init], [avg_forward], [place] as in PropsPool.v;
    [tiled sh al l sts]: on every pooled axis the stride is the block length and the block length divides the axis;
    [bsum sh f]: sum of f over all positions of the shape; [zprod]: product of a list. *)
From Coq Require Import QArith Qcanon.
From Verif Require Import BlockContract PropsMirror ExampleUtil.
Open Scope Z_scope.

(** The squared difference of the images is the squared difference of the averages (once per pixel) and the spread of the differences inside the
    blocks; so block averages are never further apart, in the mean squared error and in absolute differences. *)
Theorem C137_blocks : forall (F : ofield) fuel junk fuel' junk' (ks : nds Z) stride (m : pool F) (x y : tensor F) ax al l sts, on_axes x ax al -> shp y = shp x ->
  (forall n, In n (shp x) -> 1 <= n) ->
  expand (length al) ks = Some l -> expand (length al) stride = Some sts -> avg_init ks stride None = Ok m -> tiled (shp x) al l sts ->
  exists u v, snd (avg_forward fuel junk true m x ax) = Ok u /\ snd (avg_forward fuel' junk' true m y ax) = Ok v /\ shp v = shp u /\
    zprod (shp u) * zprod l = zprod (shp x) /\
    bsum (shp x) (fun i => sq F (fsub (at_ x i) (at_ y i))) =
      fadd (fmul (fofZ (zprod l)) (bsum (shp u) (fun j => sq F (fsub (at_ u j) (at_ v j)))))
           (bsum (shp u) (fun j => bsum l (fun o => sq F (fsub (fsub (at_ x (place al l j o)) (at_ y (place al l j o))) (fsub (at_ u j) (at_ v j)))))) /\
    fle (fmul (fofZ (zprod l)) (bsum (shp u) (fun j => fabs (fsub (at_ u j) (at_ v j))))) (bsum (shp x) (fun i => fabs (fsub (at_ x i) (at_ y i)))) /\
    exists s t, mse_forward RMean u v AxNone = Ok s /\ mse_forward RMean x y AxNone = Ok t /\ shp s = [] /\ shp t = [] /\ fle (at_ s []) (at_ t []).
Proof. exact block_pythagoras. Qed.
Print Assumptions C137_blocks.

Ltac ex_on := split; [vm_compute; reflexivity | apply all_lt; vm_compute; reflexivity | repeat constructor; cbn; intuition lia].
Definition pic1 := ofz [2; 4] [1; 5; 2; 0; 3; 7; 4; 4].
Definition pic2 := ofz [2; 4] [0; 0; 2; 2; 1; 9; 4; 0].
Definition pool22 : res (pool QcF) := avg_init (NItem 2) (NItem None) None.
Definition both (f : pool QcF -> tensor QcF -> tensor QcF -> res (tensor QcF)) : option (list Z * list Q) :=
  match pool22 with Ok m => show (f m pic1 pic2) | Err _ => None end.
Example C137_example :
  on_axes pic1 AxNone [0%nat; 1%nat] /\ shp pic2 = shp pic1 /\ expand 2 (NItem 2) = Some [2; 2] /\ expand 2 (NItem (@None Z)) = Some [None; None] /\
  (exists m, pool22 = Ok m) /\ tiled (shp pic1) [0%nat; 1%nat] [2; 2] [None; None] /\
  both (fun m x y => u <- snd (avg_forward 9 garbage true m x AxNone) ;; v <- snd (avg_forward 9 garbage true m y AxNone) ;; mse_forward RMean u v AxNone) = Some ([], [5 # 4]%Q) /\
  both (fun _ x y => mse_forward RMean x y AxNone) = Some ([], [27 # 4]%Q).
Proof.
  split; [ex_on|]. split; [reflexivity|]. split; [reflexivity|]. split; [reflexivity|].
  split; [eexists; vm_compute; reflexivity|]. split.
  - intros r Hr. destruct r as [|[|r]]; cbn in Hr |- *; try lia; (split; [lia|]); (split; [reflexivity|]); [exists 1|exists 2]; reflexivity.
  - split; vm_compute; reflexivity.
Qed.
(** Blocks that overlap may bring the images further apart. *)
Theorem C137_overlap_differs : exists (m : pool QcF) x y, avg_init (NItem 2) (NItem (Some 1)) None = Ok m /\ on_axes x AxNone [0%nat] /\ shp x = [3] /\ shp y = [3] /\
  show (mse_forward RMean x y AxNone) = Some ([], [2 # 1]%Q) /\
  show (u <- snd (avg_forward 9 garbage true m x AxNone) ;; v <- snd (avg_forward 9 garbage true m y AxNone) ;; mse_forward RMean u v AxNone) = Some ([], [9 # 4]%Q).
Proof.
  exists (pl (avg_ker QcF 2) 1 None), (ofz [3] [1; 2; 1]), (ofz [3] [0; 0; 0]). split; [reflexivity|]. split; [ex_on|]. split; [reflexivity|]. split; [reflexivity|]. split; vm_compute; reflexivity.
Qed.
Print Assumptions C137_overlap_differs.
