(** C124: filtering an image tile by tile.

    Vocabulary (Tiles.v, TilesBayer.v; PropsPool.v, PropsEdge.v, PropsSsim.v, PropsCfa.v):
    - [moved off i]: the index i with off d added on every axis d;
    - [tile off x x']: x' is the block of x that begins at off d on every axis d;
    - [strided al sts off off']: on the pooled axes off is off' times the stride, on the others off = off';
    - [image_tile pre C h w u v x x']: the h x w images of x' are those of x from row u and column v on;
    - [tile_pattern sa sa' u v]: the letters of pattern sa from row u and column v on are those of sa';
    - [copying m]: circular, symmetric, reflect or replicate padding. *)
From Coq Require Import QArith Qcanon String.
From Verif Require Import EdgeExample PropsEdge PropsPick SsimRefute IndexLemmas Tiles TilesSsim TilesEdge TilesBayer PropsCfa.
Local Notation length := List.length.
Open Scope Z_scope.

(** Pooling a tile without padding gives a tile of the pooled image, if the tile begins at a multiple of the strides. *)
Theorem C124_pool : forall (F : ofield) fuel junk fuel' junk' (m : pool F) off off' (x x' : tensor F) ax al kers sts,
  on_axes x ax al ->
  built (length al) kers sts None m ->
  (forall r, (r < length al)%nat -> klen (nth r kers []) <= nth (nth r al 0%nat) (shp x') 0) ->
  strided al (map2 eff_stride kers sts) off off' -> tile off x x' ->
  exists y y', snd (sep_forward fuel junk m x ax) = Ok y /\ snd (sep_forward fuel' junk' m x' ax) = Ok y' /\ tile off' y y'.
Proof. exact pool_valid_tile. Qed.
Print Assumptions C124_pool.
(** The result without padding is the middle of the result with padding, whatever the padding. *)
Theorem C124_middle : forall (F : ofield) fuel junk fuel' junk' (m mv : pool F) off (x : tensor F) ax (al : list nat) kers p ms,
  built (length al) kers (repeat 1 (length al)) (Some p) m -> built (length al) kers (repeat 1 (length al)) None mv ->
  same_call F fuel p x ax al ms kers (repeat 1 (length al)) ->
  (forall r, (r < length al)%nat -> klen (nth r kers []) <= nth (nth r al 0%nat) (shp x) 0) ->
  (forall r, (r < length al)%nat -> off (nth r al 0%nat) = klen (nth r kers []) / 2) -> (forall d, ~ In d al -> off d = 0) ->
  exists y yv, snd (sep_forward fuel junk m x ax) = Ok y /\ snd (sep_forward fuel' junk' mv x ax) = Ok yv /\ tile off y yv.
Proof. exact filter_middle. Qed.
Print Assumptions C124_middle.
(** Filtering a tile gives the values of the filtered image away from the border of the tile, even with another padder. *)
Theorem C124_filter : forall (F : ofield) fuel junk fuel' junk' (m m' : pool F) off (x x' : tensor F) ax al kers p ms p' ms',
  built (length al) kers (repeat 1 (length al)) (Some p) m -> built (length al) kers (repeat 1 (length al)) (Some p') m' ->
  same_call F fuel p x ax al ms kers (repeat 1 (length al)) -> same_call F fuel' p' x' ax al ms' kers (repeat 1 (length al)) ->
  tile off x x' ->
  exists y y', snd (sep_forward fuel junk m x ax) = Ok y /\ snd (sep_forward fuel' junk' m' x' ax) = Ok y' /\
    forall j, (forall d, (d < ndim x)%nat -> 0 <= nth d j 0 < nth d (shp x') 0) -> length j = ndim x ->
      (forall r, (r < length al)%nat -> klen (nth r kers []) / 2 <= nth (nth r al 0%nat) j 0 /\
         nth (nth r al 0%nat) j 0 + (klen (nth r kers []) - 1) / 2 < nth (nth r al 0%nat) (shp x') 0) ->
      at_ y' j = at_ y (moved off j).
Proof. exact filter_tile. Qed.
Print Assumptions C124_filter.
(** Edge components, k being a bound of the lengths of the kernels. *)
Theorem C124_component : forall (F : ofield) (trunc : F -> Z) fuel junk fuel' junk' ker smooth raw normalize p m p' m' shared shared' (e e' : edge_filter F) off (x x' : tensor F) ea ax ax' c al k,
  edge_init (NItem ker) smooth normalize (Some p) shared = Ok e -> edge_init (NItem ker) smooth normalize (Some p') shared' = Ok e' -> ker <> [] ->
  copying m -> copying m' -> check_axes (Z.of_nat (ndim x)) ea = Ok [Z.of_nat c] -> In c al ->
  edge_image fuel p m x ax al k -> edge_image fuel' p' m' x' ax al k -> check_axes (Z.of_nat (ndim x)) ax' = Ok (map Z.of_nat al) -> klen ker <= k ->
  expand (length (without c al)) smooth = Some raw -> (forall s, In s raw -> klen s <= k) -> tile off x x' ->
  exists y y', snd (component trunc fuel junk e x ea ax') = Ok y /\ snd (component trunc fuel' junk' e' x' ea ax') = Ok y' /\ shp y = shp x /\ shp y' = shp x' /\
    forall j, valid (shp x') j -> (forall b, In b al -> k / 2 <= nth b j 0 /\ nth b j 0 + (k - 1) / 2 < nth b (shp x') 0) ->
      at_ y' j = at_ y (moved off j).
Proof. exact component_tile. Qed.
Print Assumptions C124_component.
(** The SSIM map of tiles, without padding; if the images can be compared then the tiles can. *)
Theorem C124_ssim : forall (F : ofield) off fuel junk (s : ssim F) (x y x' y' : tensor F) cax rax al rl kers score full,
  ssim_call fuel s x y cax rax al rl kers None -> ssim_call fuel s x' y' cax rax al rl kers None ->
  tile off x x' -> tile off y y' ->
  snd (ssim_forward (sep_forward fuel junk) x y cax rax s) = Ok (score, full) ->
  exists score' full', snd (ssim_forward (sep_forward fuel junk) x' y' cax rax s) = Ok (score', full') /\ tile off full full'.
Proof. exact ssim_tile. Qed.
Print Assumptions C124_ssim.
(** BayerConv2d on a tile that begins anywhere, called with the pattern that is seen there. *)
Theorem C124_bayer : forall (F : ofield) pre C m n m' n' u v (M : bayer_conv F) (x x' : tensor F) s sa s' sa' junk junk' y y',
  nonneg pre -> 0 <= m -> 0 <= n -> 0 <= m' -> 0 <= n' -> 0 <= u -> 0 <= v -> 2 * m' + u <= 2 * m -> 2 * n' + v <= 2 * n ->
  shp x = pre ++ [C; 2 * m; 2 * n] -> shp x' = pre ++ [C; 2 * m'; 2 * n'] -> 1 <= bc_k M -> 0 <= bc_out M ->
  In sa patterns -> case_variant s sa -> In sa' patterns -> case_variant s' sa' ->
  image_tile pre C (2 * m') (2 * n') u v x x' -> tile_pattern sa sa' u v ->
  bayer_forward junk M x s = Ok y -> bayer_forward junk' M x' s' = Ok y' ->
  forall p o i j, valid pre p -> 0 <= o < bc_out M ->
    bc_k M / 2 <= i -> i + bc_k M - 1 - bc_k M / 2 < 2 * m' -> bc_k M / 2 <= j -> j + bc_k M - 1 - bc_k M / 2 < 2 * n' ->
    at_ y' (p ++ [o; i; j]) = at_ y (p ++ [o; i + u; j + v]).
Proof. exact bayer_tile. Qed.
Print Assumptions C124_bayer.
(** Demosaicing such a tile. *)
Theorem C124_demosaic : forall (F : ofield) pre m n m' n' u v (M : bayer_conv F) (x x' : tensor F) s sa s' sa' cl j1 j2 j1' j2' z z',
  nonneg pre -> 0 <= m -> 0 <= n -> 0 <= m' -> 0 <= n' -> 0 <= u -> 0 <= v -> 2 * m' + u <= 2 * m -> 2 * n' + v <= 2 * n ->
  shp x = pre ++ [1; 2 * m; 2 * n] -> shp x' = pre ++ [1; 2 * m'; 2 * n'] -> bc_in M = 1 -> bc_out M = 2 -> 1 <= bc_k M ->
  In sa patterns -> case_variant s sa -> In sa' patterns -> case_variant s' sa' ->
  image_tile pre 1 (2 * m') (2 * n') u v x x' -> tile_pattern sa sa' u v ->
  demosaic_with M j1 j2 x s cl = Ok z -> demosaic_with M j1' j2' x' s' cl = Ok z' ->
  forall p k i j, valid pre p -> 0 <= k < 3 ->
    bc_k M / 2 <= i -> i + bc_k M - 1 - bc_k M / 2 < 2 * m' -> bc_k M / 2 <= j -> j + bc_k M - 1 - bc_k M / 2 < 2 * n' ->
    at_ z' (p ++ [k; i; j]) = at_ z (p ++ [k; i + u; j + v]).
Proof. exact demosaic_tile. Qed.
Print Assumptions C124_demosaic.

(** The block of x that begins at off. *)
Definition cut (off : nat -> Z) (sh : list Z) (x : tensor QcF) : tensor QcF := mkT sh (fun i => at_ x (moved off i)).
Lemma cut_tile off sh (x : tensor QcF) : length sh = ndim x ->
  (forall d, (d < ndim x)%nat -> 0 <= off d /\ nth d sh 0 + off d <= nth d (shp x) 0) -> tile off x (cut off sh x).
Proof. intros L B. split; [exact L|]. split; [exact B|]. reflexivity. Qed.
Definition from (l : list Z) (d : nat) : Z := nth d l 0.
Definition w56 := ofz [5; 6] [1; 2; 4; 8; 3; 5;  9; 10; 20; 30; 50; 51;  7; 0; 6; 2; 2; 8;  1; 1; 3; 3; 6; 6;  0; 9; 0; 9; 0; 9].
Definition t44 := cut (from [1; 2]) [4; 4] w56.
Lemma t44_tile : tile (from [1; 2]) w56 t44.
Proof. apply cut_tile; [reflexivity|]. nats. Qed.
Definition poolw pd := mkPool (NList [kerA; kerB]) (NList [3; 2]) (NList [1; 2]) pd 2.
Lemma built_w pd : built 2 [kerA; kerB] [1; 2] pd (poolw pd).
Proof. apply (built_init 2 [kerA; kerB] (NList [kerA; kerB]) (NList [Some 1; None]) [Some 1; None]); reflexivity. Qed.
Definition symm : padder QcF := pad1d (0, 0) MSymmetric.
Lemma same_w m (x : tensor QcF) a b : fills m -> shp x = [a; b] -> 1 <= a <= 6 -> 1 <= b <= 6 ->
  same_call QcF 20 (pad1d (0, 0) m) x AxNone [0%nat; 1%nat] [m; m] [kerA; kerB] [1; 1].
Proof.
  intros Hm Sx Ha Hb. split.
  - split; [unfold ndim; rewrite Sx; reflexivity|unfold ndim; rewrite Sx; intros d [<-|[<-|[]]]; cbn; lia|repeat constructor; cbn; intuition lia].
  - unfold ndim. rewrite Sx. cbn. lia.
  - unfold ndim. rewrite Sx. intros [|[|d]] Hd; cbn in *; lia.
  - rewrite Sx. intros d [<-|[<-|[]]]; cbn; lia.
  - intros [|[|r]] Hr; cbn in *; lia.
  - split; [reflexivity|discriminate|discriminate|discriminate].
  - intros k [<-|[<-|[]]]; exact Hm.
  - unfold ndim. rewrite Sx. intros d k Hd Hk. assert (nth d [a; b] 0 <= 6) by (destruct d as [|[|d]]; cbn in *; lia).
    destruct Hk as [->|[ker [[<-|[<-|[]]] ->]]]; unfold klen; cbn [kerA kerB length]; lia.
Qed.
(** Kernels of 3 and 2 with strides 1 and 2: the tile from row 1 and column 2 on becomes the block from row 1
    and column 1 on. *)
Example C124_pool_example :
  on_axes w56 AxNone [0%nat; 1%nat] /\ built 2 [kerA; kerB] [1; 2] None (poolw None) /\
  (forall r, (r < 2)%nat -> klen (nth r [kerA; kerB] []) <= nth (nth r [0; 1]%nat 0%nat) (shp t44) 0) /\
  strided [0; 1]%nat (map2 eff_stride [kerA; kerB] [1; 2]) (from [1; 2]) (from [1; 1]) /\ tile (from [1; 2]) w56 t44 /\
  show (snd (sep_forward 20 garbage (poolw None) w56 AxNone)) = Some ([3; 3], [6; 15; 55 # 2;   35 # 8; 9; 133 # 8;   5 # 2; 29 # 8; 43 # 8]%Q) /\
  show (snd (sep_forward 20 garbage (poolw None) t44 AxNone)) = Some ([2; 2], [9; 133 # 8;   29 # 8; 43 # 8]%Q).
Proof.
  split; [ex_on|]. split; [apply built_w|]. split; [nats|]. split.
  { split; [nats|]. intros [|[|d]] H; cbn in H; try tauto; auto. }
  split; [exact t44_tile|]. split; vm_compute; reflexivity.
Qed.
(** A tile that begins between two windows. *)
Example C124_pool_stride_differs : tile (from [1; 1]) w56 (cut (from [1; 1]) [4; 4] w56) /\
  show (snd (sep_forward 20 garbage (poolw None) (cut (from [1; 1]) [4; 4] w56) AxNone)) = Some ([2; 2], [23 # 4; 97 # 8;   23 # 8; 31 # 8]%Q).
Proof. split; [apply cut_tile; [reflexivity|nats]|]. vm_compute; reflexivity. Qed.
Example C124_filter_example :
  built 2 [kerA; kerB] (repeat 1 2) (Some repl) (filt51 (Some repl)) /\ built 2 [kerA; kerB] (repeat 1 2) (Some symm) (filt51 (Some symm)) /\
  built 2 [kerA; kerB] (repeat 1 2) None (filt51 None) /\
  same_call QcF 20 repl w56 AxNone [0; 1]%nat [MReplicate; MReplicate] [kerA; kerB] (repeat 1 2) /\
  same_call QcF 20 symm t44 AxNone [0; 1]%nat [MSymmetric; MSymmetric] [kerA; kerB] (repeat 1 2) /\ tile (from [1; 2]) w56 t44 /\
  show (snd (sep_forward 20 garbage (filt51 None) w56 AxNone)) = Some ([3; 5],
    [6; 9; 15; 175 # 8; 55 # 2;   35 # 8; 23 # 4; 9; 97 # 8; 133 # 8;   5 # 2; 23 # 8; 29 # 8; 31 # 8; 43 # 8]%Q) /\
  show (snd (sep_forward 20 garbage (filt51 (Some repl)) w56 AxNone)) = Some ([5; 6],
    [3; 7 # 2; 6; 43 # 4; 113 # 8; 125 # 8;   13 # 2; 6; 9; 15; 175 # 8; 55 # 2;   6; 35 # 8; 23 # 4; 9; 97 # 8; 133 # 8;
     9 # 4; 5 # 2; 23 # 8; 29 # 8; 31 # 8; 43 # 8;   1 # 4; 29 # 8; 31 # 8; 33 # 8; 9 # 2; 39 # 8]%Q) /\
  show (snd (sep_forward 20 garbage (filt51 (Some symm)) t44 AxNone)) = Some ([4; 4],
    [33 # 2; 79 # 4; 61 # 2; 313 # 8;   35 # 4; 9; 97 # 8; 133 # 8;   3; 29 # 8; 31 # 8; 43 # 8;   3 # 4; 33 # 8; 9 # 2; 39 # 8]%Q).
Proof.
  split; [apply built51|]. split; [apply built51|]. split; [apply built51|]. split; [apply (same_w MReplicate w56 5 6); [exact I|reflexivity|lia|lia]|].
  split; [apply (same_w MSymmetric t44 4 4); [exact I|reflexivity|lia|lia]|]. split; [exact t44_tile|].
  split; [|split]; vm_compute; reflexivity.
Qed.
Lemma image_w m (x : tensor QcF) a b k : fills m -> shp x = [a; b] -> 1 <= a <= 6 -> 1 <= b <= 6 -> k <= 6 ->
  edge_image 20 (pad1d (0, 0) m) m x AxNone [0%nat; 1%nat] k.
Proof.
  intros Hm Sx Ha Hb Hk.
  split; [split; [unfold ndim; rewrite Sx; reflexivity|unfold ndim; rewrite Sx; intros d [<-|[<-|[]]]; cbn; lia|repeat constructor; cbn; intuition lia] | | | | exact Hm |].
  - unfold ndim. rewrite Sx. intros [|[|d]] Hd; cbn in *; lia.
  - rewrite Sx. intros d [<-|[<-|[]]]; cbn; lia.
  - split; [reflexivity|]. split; [eexists; reflexivity|]. split; eexists; reflexivity.
  - unfold ndim. rewrite Sx. intros [|[|d]] Hd; cbn [nth length] in Hd |- *; try lia.
Qed.
(** Sobel's horizontal component: rows 1, 2 and columns 1, 2 of the tile. *)
Example C124_component_example : let e := edge_of central_kernel (ints [1; 2; 1]) (Some repl) in let e' := edge_of central_kernel (ints [1; 2; 1]) (Some symm) in
  edge_init (NItem central_kernel) (NItem (ints [1; 2; 1])) false (Some repl) false = Ok e /\
  edge_init (NItem central_kernel) (NItem (ints [1; 2; 1])) false (Some symm) false = Ok e' /\
  edge_image 20 repl MReplicate w56 AxNone [0; 1]%nat 3 /\ edge_image 20 symm MSymmetric t44 AxNone [0; 1]%nat 3 /\ klen (@central_kernel QcF) = 3 /\
  copying (@MReplicate QcF) /\ copying (@MSymmetric QcF) /\ tile (from [1; 2]) w56 t44 /\
  option_map snd (show (snd (component qtrunc 20 garbage e w56 (AxInt 1) AxNone))) = Some (zq [4; 20; 38; 27; 12; 7; -4; 24; 48; 55; 45; 10; -13; 11; 26; 25; 36; 13; 2; 3; 6; 2; 12; 15; 27; 2; 2; 3; 3; 27]) /\
  option_map snd (show (snd (component qtrunc 20 garbage e' t44 (AxInt 1) AxNone))) = Some (zq [26; 86; 69; 9; 2; 25; 36; 13; 5; 2; 12; 15; 27; 3; 3; 27]).
Proof.
  cbv zeta. split; [apply edge_of_init|]. split; [apply edge_of_init|]. split; [apply (image_w MReplicate w56 5 6); (exact I || reflexivity || lia)|].
  split; [apply (image_w MSymmetric t44 4 4); (exact I || reflexivity || lia)|]. split; [reflexivity|].
  split; [right; right; right; reflexivity|]. split; [right; left; reflexivity|]. split; [exact t44_tile|]. split; vm_compute; reflexivity.
Qed.
(** Two images of a batch; the tile is the lower right part of the second. *)
Definition t132 := cut (from [1; 1; 1]) [1; 3; 2].
Example C124_ssim_example :
  ssim_call 20 (s51 None true) x51 y51 (AxSlice (sfrom 1)) (AxSlice (sfrom 1)) [1; 2]%nat [1; 2]%nat kers51 None /\
  ssim_call 20 (s51 None true) (t132 x51) (t132 y51) (AxSlice (sfrom 1)) (AxSlice (sfrom 1)) [1; 2]%nat [1; 2]%nat kers51 None /\
  tile (from [1; 1; 1]) x51 (t132 x51) /\ tile (from [1; 1; 1]) y51 (t132 y51) /\
  snd (show2 (snd (ssim_forward (sep_forward 20 garbage) x51 y51 (AxSlice (sfrom 1)) (AxSlice (sfrom 1)) (s51 None true)))) =
    Some ([2; 2; 2], [88871 # 96733; 108511 # 117993; 1070395 # 1153703; 1834283 # 1934439;   -11 # 16; -11 # 16; -27328 # 56829; -27328 # 56829]%Q) /\
  snd (show2 (snd (ssim_forward (sep_forward 20 garbage) (t132 x51) (t132 y51) (AxSlice (sfrom 1)) (AxSlice (sfrom 1)) (s51 None true)))) =
    Some ([1; 1; 1], [-27328 # 56829]%Q).
Proof.
  split; [apply call51; now left|]. split.
  { split; [reflexivity|ex_on|ex_on|apply built51|cbn [blur_call]; nats; unfold klen; cbn; lia|intros _; nats; unfold klen; cbn; lia|
      intros n [<-|[<-|[<-|[]]]]; lia|intros _ E; discriminate]. }
  split; [apply cut_tile; [reflexivity|nats]|]. split; [apply cut_tile; [reflexivity|nats]|]. split; vm_compute; reflexivity.
Qed.
(** 6 x 8 pixels with the pattern RGGB; the tile of 4 x 6 pixels from row 1 and column 2 on has the pattern
    GBRG. *)
Definition b68 := ofz [1; 6; 8] [1; 2; 4; 8; 3; 5; 9; 10;  20; 30; 50; 51; 7; 0; 6; 2;  2; 8; 1; 1; 3; 3; 6; 6;
  0; 9; 0; 9; 0; 9; 5; 5;  31; 41; 59; 26; 53; 58; 97; 93;  2; 71; 82; 81; 82; 84; 59; 4].
Definition b46 := cut (from [0; 1; 2]) [1; 4; 6] b68.
Lemma b46_tile : image_tile [] 1 (2 * 2) (2 * 3) 1 2 b68 b46.
Proof. intros p c i j Vp Hc Hi Hj. inversion Vp; subst. cbn [app b46 cut at_]. unfold moved, from. cbn [length seq map nth]. now rewrite Z.add_0_r. Qed.
Lemma gbrg_tile : tile_pattern "RGGB" "GBRG" 1 2.
Proof.
  intros i j. unfold letter_at. replace (j + 2) with (j + 1 * 2) by lia. rewrite Z.mod_add by lia.
  rewrite (Z.add_mod i 1 2) by lia. pose proof (Z.mod_pos_bound i 2). pose proof (Z.mod_pos_bound j 2).
  assert (i mod 2 = 0 \/ i mod 2 = 1) as [E|E] by lia; rewrite E; (assert (j mod 2 = 0 \/ j mod 2 = 1) as [E'|E'] by lia); rewrite E'; reflexivity.
Qed.
Example C124_bayer_example :
  shp b68 = [] ++ [1; 2 * 3; 2 * 4] /\ shp b46 = [] ++ [1; 2 * 2; 2 * 3] /\ image_tile [] 1 (2 * 2) (2 * 3) 1 2 b68 b46 /\
  tile_pattern "RGGB" "GBRG" 1 2 /\ bc_k net3 = 3 /\
  option_map snd (show (bayer_forward garbage net3 b68 "rggb")) = Some (zq [1815; 2548; 3084; 2686; 1347; 521; 449; 673; 1367; 1608; 1841; 1524; 831; 506; 485; 682; 656; 560; 633; 434; 464; 486; 573; 575; 2739; 3192; 2987; 3304; 3279; 5056; 5749; 6852; 4285; 5109; 6313; 7059; 6747; 7501; 5785; 6159; 4441; 5559; 5813; 6763; 6320; 8400; 7707; 9050]) /\
  option_map snd (show (bayer_forward garbage net3 b46 "gbrg")) = Some (zq [1897; 1497; 818; 488; 465; 652; 563; 434; 464; 486; 573; 575; 2665; 3304; 3279; 5056; 5749; 6852; 1617; 1867; 1935; 2887; 3173; 3805]).
Proof.
  split; [reflexivity|]. split; [reflexivity|]. split; [exact b46_tile|]. split; [exact gbrg_tile|]. split; [reflexivity|].
  split; vm_compute; reflexivity.
Qed.
(** The red channel. *)
Definition channel (c : Z) (z : tensor QcF) : tensor QcF := mkT (tl (shp z)) (fun i => at_ z (c :: i)).
Example C124_demosaic_example : bc_in net2 = 1 /\ bc_out net2 = 2 /\ bc_k net2 = 2 /\
  show (z <- demosaic_with net2 garbage garbage b68 "RGGB" (qz 9000) ;; Ok (channel 0 z)) = Some ([6; 8], zq [1; 115; 4; 292; 3; 100; 9; 229; 574; 638; 940; 1295; 659; 105; 95; 146; 2; 198; 1; 175; 3; 76; 6; 148; 111; 145; 109; 122; 106; 132; 174; 155; 31; 851; 59; 979; 53; 1297; 97; 2198; 908; 1132; 1924; 2233; 2007; 2356; 1884; 1233]) /\
  show (z <- demosaic_with net2 garbage garbage b46 "GBRG" (qz 9000) ;; Ok (channel 0 z)) = Some ([4; 6], zq [1164; 1268; 652; 99; 87; 128; 1; 175; 3; 76; 6; 148; 102; 122; 106; 132; 174; 155; 59; 979; 53; 1297; 97; 2198]).
Proof. split; [reflexivity|]. split; [reflexivity|]. split; [reflexivity|]. split; vm_compute; reflexivity. Qed.
