(** C132: edge filters called with numbers that are not axes of the image (filtering/edges.py:57-136).

    Vocabulary (EdgeWrap.v, EdgeHV.v; PropsEdge.v):
    - [sliced_kernel trunc ker]: ker is applied by slicing (its integer parts are (-1, 0, 1) or (1, -2, 1));
    - [handed nd a]: what check_axes makes of the int a: a or nd + a, without any check;
    - [copying m], [spot m n t]: C91; [edge_image], [smoothers], [without]: C44. *)
From Coq Require Import QArith Qcanon.
From Verif Require Import EdgeExample PropsEdge EdgeHV EdgeWrap SsimRefute.
Open Scope Z_scope.

(** ** C132 (wrapped): an edge axis b - ndim with -ndim <= b < 0 is accepted; the result is the edge along axis ndim + b, but that axis
    is not removed from the smoothing axes (compare C44_component_partial, with [without a al] for [al]). *)
Theorem C132_wrapped : forall (F : ofield) (trunc : F -> Z) fuel junk ker smooth raw normalize p shared (e : edge_filter F) (x : tensor F) b sx a al ms ms',
  truncates trunc -> exact_path trunc ker ->
  edge_init (NItem ker) smooth normalize (Some p) shared = Ok e -> ker <> [] ->
  - Z.of_nat (ndim x) <= b < 0 -> a = Z.to_nat (b + Z.of_nat (ndim x)) -> check_axes (Z.of_nat (ndim x)) sx = Ok (map Z.of_nat al) ->
  same_call F fuel p x (AxInt (Z.of_nat a)) [a] ms [ker] [1] -> ~ In MPeriodize ms ->
  expand (length al) smooth = Some raw ->
  same_call F fuel p x (AxSeq (map Z.of_nat al)) al ms' (smoothers normalize raw) (repeat 1 (length al)) ->
  exists w xp c ws cp y,
    is_same_width (klen ker) 1 (nth a (shp x) 0) w /\
    padder_forward fuel junk (with_width p [w]) x (AxInt (Z.of_nat a)) = Ok xp /\
    shp c = shp x /\
    (forall j, valid (shp x) j -> at_ c j = fsum (klen ker) (fun q => fmul (nth (Z.to_nat q) ker f0) (at_ xp (upd a (nth a j 0 + q) j)))) /\
    length ws = length al /\
    (forall r, (r < length al)%nat ->
       is_same_width (klen (nth r (smoothers normalize raw) [])) 1 (nth (nth r al 0%nat) (shp x) 0) (nth r ws (0, 0))) /\
    padder_forward fuel junk (with_width p ws) c (AxSeq (map Z.of_nat al)) = Ok cp /\
    snd (component trunc fuel junk e x (AxInt (b - Z.of_nat (ndim x))) sx) = Ok y /\ (~ In MPeriodize ms' -> shp y = shp x) /\
    forall j, valid (shp y) j -> at_ y j = correlation al (smoothers normalize raw) (repeat 1 (length al)) cp j.
Proof. exact component_wrapped. Qed.
Print Assumptions C132_wrapped.
Definition sob : edge_filter QcF := edge_of (ints [-1; 0; 1]) (ints [1; 2; 1]) (Some repl).
Definition kD : edge_filter QcF := edge_of kerD (ints [1; 2; 1]) (Some repl).
Example C132_wrapped_example :
  same_call QcF 16 repl x34 (AxInt 1) [1%nat] [MReplicate] [ints [-1; 0; 1]] [1] /\
  same_call QcF 16 repl x34 (AxSeq [0; 1]) [0%nat; 1%nat] [MReplicate; MReplicate] [ints [1; 2; 1]; ints [1; 2; 1]] [1; 1] /\
  edge_init (NItem (ints [-1; 0; 1])) (NItem (ints [1; 2; 1])) false (Some repl) false = Ok sob /\
  show (snd (component qtrunc 16 garbage sob x34 (AxInt (-3)) AxNone)) <> show (snd (component qtrunc 16 garbage sob x34 (AxInt (-1)) AxNone)) /\
  show (snd (component qtrunc 16 garbage sob x34 (AxInt (-1)) AxNone)) = Some ([3; 4], zq [5; 15; 23; 13; 15; 45; 37; 7; 32; 96; 68; 4]) /\
  show (snd (component qtrunc 16 garbage sob x34 (AxInt (-3)) AxNone)) = Some ([3; 4], zq [30; 58; 74; 62; 90; 142; 126; 58; 192; 292; 236; 80]).
Proof.
  split; [apply (edge_image_one QcF 16 repl MReplicate x34 AxNone [0; 1]%nat 4 1); [apply image34; lia|cbn; auto|unfold klen; cbn; lia]|].
  split.
  { apply (edge_image_call QcF 16 repl MReplicate x34 AxNone [0; 1]%nat 4 (AxSeq [0; 1]) [0; 1]%nat [ints [1; 2; 1]; ints [1; 2; 1]]);
      [apply image34; lia|cbn; lia|reflexivity|apply incl_refl|repeat constructor; cbn; intuition lia|lia|].
    intros k [<-|[<-|[]]]; unfold klen; cbn; lia. }
  split; [reflexivity|]. split; [vm_compute; discriminate|]. split; vm_compute; reflexivity.
Qed.

(** ** C132 (lines): on a one-dimensional image horizontal and vertical raise nothing: both are the derivative of the line, smoothed along the line. *)
Theorem C132_line : forall (F : ofield) (trunc : F -> Z) fuel junk ker s s' normalize p m shared (e : edge_filter F) (x : tensor F) k,
  truncates trunc -> exact_path trunc ker -> copying m ->
  edge_init (NItem ker) (NItem s) normalize (Some p) shared = Ok e -> ker <> [] -> s <> [] -> smoothers normalize [s] = [s'] ->
  ndim x = 1%nat -> edge_image fuel p m x AxNone [0%nat] k -> klen ker <= k -> klen s <= k ->
  exists y, snd (horizontal trunc fuel junk e x) = Ok y /\ snd (vertical trunc fuel junk e x) = Ok y /\ shp y = shp x /\
    forall i, let n := nth 0 (shp x) 0 in 0 <= i < n -> at_ y [i] =
      fsum (klen s) (fun r => fmul (nth (Z.to_nat r) s' f0) (fsum (klen ker) (fun q => fmul (nth (Z.to_nat q) ker f0)
        (at_ x [spot m n (spot m n (i + r - klen s / 2) + q - klen ker / 2)])))).
Proof. exact horizontal_line. Qed.
Print Assumptions C132_line.
Definition x5 := ofz [5] [1; 2; 4; 8; 16].
Example C132_line_example : edge_image 16 repl MReplicate x5 AxNone [0%nat] 3 /\
  show (snd (horizontal qtrunc 16 garbage sob x5)) = Some ([5], zq [6; 13; 27; 38; 36]) /\
  show (snd (vertical qtrunc 16 garbage sob x5)) = Some ([5], zq [6; 13; 27; 38; 36]).
Proof.
  split.
  { assert (P : forall d, (d < ndim x5)%nat -> nth d (shp x5) 0 = 5) by (intros [|d] Hd; [reflexivity|cbn in Hd; lia]).
    split; [ex_on | | | | exact I |].
    - intros d H. rewrite P by auto. lia.
    - intros a [<-|[]]. cbn. lia.
    - split; [reflexivity|]. split; [eexists; reflexivity|]. split; eexists; reflexivity.
    - intros d H. rewrite P by auto. lia. }
  split; vm_compute; reflexivity.
Qed.

(** ** C132 (edge axis): the other ints are errors, of a kind that depends on the kernel. *)
Theorem C132_edge_axis : forall (F : ofield) (trunc : F -> Z) fuel junk ker smooth normalize pd shared (e : edge_filter F) (x : tensor F) a sx sl,
  edge_init (NItem ker) smooth normalize pd shared = Ok e -> ker <> [] ->
  check_axes (Z.of_nat (ndim x)) sx = Ok sl ->
  a < - 3 * Z.of_nat (ndim x) \/ Z.of_nat (ndim x) <= a ->
  (sliced_kernel trunc ker -> snd (component trunc fuel junk e x (AxInt a) sx) = Err IndexError) /\
  (~ sliced_kernel trunc ker ->
   snd (component trunc fuel junk e x (AxInt a) sx) = Err (if a =? Z.of_nat (ndim x) then IndexError else AssertionError)).
Proof. exact edge_axis_off. Qed.
Print Assumptions C132_edge_axis.
Example C132_edge_axis_example : sliced_kernel qtrunc (ints [-1; 0; 1]) /\ ~ sliced_kernel qtrunc kerD /\
  map (fun a => errof (snd (component qtrunc 16 garbage sob x34 (AxInt a) AxNone))) [-7; -5; -4; 1; 2; 3] =
    [Some IndexError; Some IndexError; None; None; Some IndexError; Some IndexError] /\
  map (fun a => errof (snd (component qtrunc 16 garbage kD x34 (AxInt a) AxNone))) [-7; -5; -4; 1; 2; 3] =
    [Some AssertionError; None; None; None; Some IndexError; Some AssertionError].
Proof.
  split; [left; vm_compute; reflexivity|]. split; [intros [E|E]; vm_compute in E; discriminate|]. split; vm_compute; reflexivity.
Qed.

(** ** C132 (smoothing axes): a far int is an AssertionError, the number ndim in a sequence an IndexError, once the edge has been computed. *)
Theorem C132_smooth_far : forall (F : ofield) (trunc : F -> Z) fuel junk ker smooth normalize pd shared (e : edge_filter F) (x c : tensor F) ea b s,
  edge_init (NItem ker) smooth normalize pd shared = Ok e ->
  check_axes (Z.of_nat (ndim x)) ea = Ok [b] -> snd (conv_edge trunc fuel junk e x b) = Ok c -> ndim c = ndim x ->
  s < - 2 * Z.of_nat (ndim x) \/ Z.of_nat (ndim x) < s -> handed (ndim x) s <> b ->
  snd (component trunc fuel junk e x ea (AxInt s)) = Err AssertionError.
Proof. exact smooth_axis_far. Qed.
Print Assumptions C132_smooth_far.
Theorem C132_smooth_ndim : forall (F : ofield) (trunc : F -> Z) fuel junk ker s normalize p shared (e : edge_filter F) (x c : tensor F) ea b l l',
  edge_init (NItem ker) (NItem s) normalize (Some p) shared = Ok e ->
  check_axes (Z.of_nat (ndim x)) ea = Ok [b] -> snd (conv_edge trunc fuel junk e x b) = Ok c -> ndim c = ndim x ->
  check_axes (Z.of_nat (ndim x)) (AxSeq l) = Ok l' -> In (Z.of_nat (ndim x)) l' -> b <> Z.of_nat (ndim x) ->
  snd (component trunc fuel junk e x ea (AxSeq l)) = Err IndexError.
Proof. exact smooth_axis_ndim. Qed.
Print Assumptions C132_smooth_ndim.

(** ** C132 (gradients): an int is too few axes; the number ndim in a list of axes is an IndexError. *)
Theorem C132_gradient_int : forall (F : ofield) (trunc : F -> Z) fuel junk (e : edge_filter F) (x : tensor F) a eps pw,
  magnitude trunc fuel junk e x (AxInt a) eps pw = (e, Err ValueError) /\ all_components trunc fuel junk e x (AxInt a) = (e, Err ValueError).
Proof. exact gradient_int. Qed.
Print Assumptions C132_gradient_int.
Theorem C132_gradient_ndim : forall (F : ofield) (trunc : F -> Z) fuel junk ker s normalize p shared (e : edge_filter F) (x : tensor F) l l' eps pw,
  edge_init (NItem ker) (NItem s) normalize (Some p) shared = Ok e -> ker <> [] ->
  check_axes (Z.of_nat (ndim x)) (AxSeq l) = Ok l' -> (2 <= length l)%nat -> In (Z.of_nat (ndim x)) l' ->
  (forall a, hd 0 l' = Z.of_nat a -> (a < ndim x)%nat -> exists ms, same_call F fuel p x (AxInt (Z.of_nat a)) [a] ms [ker] [1]) ->
  snd (magnitude trunc fuel junk e x (AxSeq l) eps pw) = Err IndexError /\ snd (all_components trunc fuel junk e x (AxSeq l)) = Err IndexError.
Proof. exact gradient_ndim. Qed.
Print Assumptions C132_gradient_ndim.
Example C132_errors_example :
  option_map fst (show (snd (conv_edge qtrunc 16 garbage sob x34 1))) = Some [3; 4] /\
  map (fun s => errof (snd (component qtrunc 16 garbage sob x34 (AxInt 1) (AxInt s)))) [-5; -4; 2; 3] = [Some AssertionError; None; Some IndexError; Some AssertionError] /\
  errof (snd (component qtrunc 16 garbage sob x34 (AxInt 1) (AxSeq [0; 2]))) = Some IndexError /\
  check_axes 2 (AxSeq [-1; 2]) = Ok [1; 2] /\ same_call QcF 16 repl x34 (AxInt 1) [1%nat] [MReplicate] [ints [-1; 0; 1]] [1] /\
  errof (snd (magnitude qtrunc 16 garbage sob x34 (AxSeq [-1; 2]) f0 P1)) = Some IndexError /\
  errof (snd (magnitude qtrunc 16 garbage sob x34 (AxSeq [2; 1]) f0 P1)) = Some IndexError /\
  errof (snd (magnitude qtrunc 16 garbage sob x34 (AxSeq [-1; 1]) f0 P1)) = None.
Proof.
  do 4 (split; [vm_compute; reflexivity|]).
  split; [apply (edge_image_one QcF 16 repl MReplicate x34 AxNone [0; 1]%nat 4 1); [apply image34; lia|cbn; auto|unfold klen; cbn; lia]|].
  split; [vm_compute; reflexivity|]. split; vm_compute; reflexivity.
Qed.
