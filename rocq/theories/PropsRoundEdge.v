(** C146: how far rounding can take an edge filter from the exact result.

    Vocabulary (RoundEdgeModel.v, RoundEdge.v; PropsRound.v, PropsEdge.v):
    - [fl_component trunc e fuel junk g x ea ax y]: y is a result that EdgeFilter.component may give in floating-point
      arithmetic: every addition, subtraction and product of the edge filter and of the smoothing, and every kernel
      entry, may be rounded, with a relative error of at most e;
    - [used_kernel trunc ker]: the kernel _conv_edge really uses: slices replace a kernel whose integer parts are -1, 0, 1 or
      1, -2, 1;
    - [edge_roundings trunc ker]: 1 for the slices of -1, 0, 1; 2 for those of 1, -2, 1; else the kernel's length plus one;
    - [smoothers normalize raw]: the smoothing kernels, divided by their sums if normalize;
    - [gain], [roundings], [bounded], [within]: as in PropsRound.v; [abs_sum ker]: the sum of the absolute values;
    - [copy_padder B p m]: the Padder p has one mode m, which copies or negates pixels, or fills in constants of at most B
      in absolute value;
    - [edge_image], [named], [truncates], [without]: as in PropsEdge.v. *)
From Coq Require Import QArith Qcanon.
From Verif Require Import ExampleUtil EdgeExample RoundEdge PropsEdge PropsEdge3 IndexLemmas.
Open Scope Z_scope.

Theorem C146_component : forall (F : ofield) (trunc : F -> Z) e fuel junk ker smooth raw normalize p m shared (g : edge_filter F) (x y' : tensor F) ea ax ax' c al k B,
  fle f0 e -> edge_init (NItem ker) smooth normalize (Some p) shared = Ok g -> ker <> [] ->
  check_axes (Z.of_nat (ndim x)) ea = Ok [Z.of_nat c] -> In c al ->
  edge_image fuel p m x ax al (k + 1) -> check_axes (Z.of_nat (ndim x)) ax' = Ok (map Z.of_nat al) -> klen ker <= k ->
  expand (length (without c al)) smooth = Some raw -> (forall s, In s raw -> klen s <= k) ->
  copy_padder B p m -> copy_padder (fmul (abs_sum (used_kernel trunc ker)) B) p m -> bounded B x ->
  fl_component trunc e fuel junk g x ea ax' y' ->
  exists y, snd (component trunc fuel junk g x ea ax') = Ok y /\
    within (fmul (fsub (fpow (fadd f1 e) (edge_roundings trunc ker + roundings (smoothers normalize raw))) f1)
                 (fmul (gain (smoothers normalize raw)) (fmul (abs_sum (used_kernel trunc ker)) B))) y' y.
Proof. exact component_rounding. Qed.
Print Assumptions C146_component.
(** Normalized Sobel, Prewitt and Scharr: one rounding for the difference and four for each further axis. *)
Theorem C146_sobel : forall (F : ofield) (trunc : F -> Z) e fuel junk p m shared (g : edge_filter F) (x y' : tensor F) smooth ea ax ax' c al B,
  truncates trunc -> fle f0 e -> named true (Some p) shared g central_kernel smooth ->
  check_axes (Z.of_nat (ndim x)) ea = Ok [Z.of_nat c] -> In c al ->
  edge_image fuel p m x ax al 6 -> check_axes (Z.of_nat (ndim x)) ax' = Ok (map Z.of_nat al) ->
  copy_padder B p m -> bounded B x -> fl_component trunc e fuel junk g x ea ax' y' ->
  exists y, snd (component trunc fuel junk g x ea ax') = Ok y /\
    within (fmul (fsub (fpow (fadd f1 e) (1 + 4 * length (without c al))) f1) (fmul (fofZ 2) B)) y' y.
Proof. exact sobel_rounding. Qed.
Print Assumptions C146_sobel.
(** Laplace: two roundings, whatever the number of axes. *)
Theorem C146_laplace : forall (F : ofield) (trunc : F -> Z) e fuel junk p m shared (g : edge_filter F) (x y' : tensor F) ea ax ax' c al B,
  truncates trunc -> fle f0 e -> laplace_init (Some p) shared = Ok g ->
  check_axes (Z.of_nat (ndim x)) ea = Ok [Z.of_nat c] -> In c al ->
  edge_image fuel p m x ax al 6 -> check_axes (Z.of_nat (ndim x)) ax' = Ok (map Z.of_nat al) ->
  copy_padder B p m -> bounded B x -> fl_component trunc e fuel junk g x ea ax' y' ->
  exists y, snd (component trunc fuel junk g x ea ax') = Ok y /\ within (fmul (fsub (fpow (fadd f1 e) 2) f1) (fmul (fofZ 4) B)) y' y.
Proof. exact laplace_rounding. Qed.
Print Assumptions C146_laplace.
(** The exact result is one of the possible ones. *)
Theorem C146_exact : forall (F : ofield) (trunc : F -> Z) e fuel junk (g : edge_filter F) (x y : tensor F) ea ax, fle f0 e ->
  snd (component trunc fuel junk g x ea ax) = Ok y -> fl_component trunc e fuel junk g x ea ax y.
Proof. exact component_exact. Qed.
Print Assumptions C146_exact.

(** Normalized Sobel of a 3 x 4 image with values up to 51, reflected at the borders, a tenth of relative error: if every difference is
    rounded up by a tenth and the smoothing is exact, the component is a tenth too large, which is within the bound. *)
Definition tenth (t : tensor QcF) : tensor QcF := tmap (fmul (qq 11 10)) t.
Lemma tenth_rounded (t : tensor QcF) : rounded (qq 1 10) t (tenth t).
Proof.
  split; [reflexivity|]. intros j _. unfold rounds. cbn [tenth tmap at_]. set (v := at_ t j).
  replace (fsub (fmul (qq 11 10) v) v) with (fmul (qq 1 10) v).
  - rewrite fabs_mul. replace (fabs (qq 1 10)) with (qq 1 10) by (apply Qc_is_canon; vm_compute; reflexivity). apply fle_refl.
  - replace (qq 11 10) with (fadd (qq 1 10) (@f1 QcF)) by (apply Qc_is_canon; vm_compute; reflexivity).
    change (qq 1 10 * v = (qq 1 10 + 1) * v - v)%Qc. ring.
Qed.
Example C146_example : exists (g : edge_filter QcF) (y' : tensor QcF),
  truncates qtrunc /\ fle f0 (qq 1 10) /\ named true (Some (evenp 0 MReflect)) true g central_kernel (ints [1; 2; 1]) /\
  edge_image 16 (evenp 0 MReflect) MReflect x34 AxNone [0; 1]%nat 6 /\ copy_padder (qz 51) (evenp 0 MReflect) MReflect /\ bounded (qz 51) x34 /\
  fl_component qtrunc (qq 1 10) 16 garbage g x34 (AxInt 1) AxNone y' /\
  show (snd (component qtrunc 16 garbage g x34 (AxInt 1) AxNone)) = Some ([3; 4], [0; 9 # 2; 11 # 2; 0; 0; 45 # 4; 37 # 4; 0; 0; 18; 13; 0]%Q) /\
  show (Ok y') = Some ([3; 4], [0; 99 # 20; 121 # 20; 0; 0; 99 # 8; 407 # 40; 0; 0; 99 # 5; 143 # 10; 0]%Q) /\
  fsub (fpow (fadd f1 (qq 1 10)) (1 + 4 * length (without 1 [0; 1]%nat))) f1 = qq 61051 100000.
Proof.
  destruct (named_ok QcF true (Some (evenp 0 MReflect)) true) as [[g Hg] _].
  assert (S : show (c <- snd (conv_edge qtrunc 16 garbage g x34 1) ;;
                    snd (sep_forward 16 garbage (ef_smooth (fst (conv_edge qtrunc 16 garbage g x34 1))) (tenth c) (AxSeq (filter (fun b => negb (b =? 1)) [0; 1])))) =
              Some ([3; 4], [0; 99 # 20; 121 # 20; 0; 0; 99 # 8; 407 # 40; 0; 0; 99 # 5; 143 # 10; 0]%Q)).
  { rewrite (get_ok filter0 _ _ Hg). clear Hg. vm_compute. reflexivity. }
  assert (S2 : show (snd (component qtrunc 16 garbage g x34 (AxInt 1) AxNone)) = Some ([3; 4], [0; 9 # 2; 11 # 2; 0; 0; 45 # 4; 37 # 4; 0; 0; 18; 13; 0]%Q)).
  { rewrite (get_ok filter0 _ _ Hg). clear Hg. vm_compute. reflexivity. }
  assert (K : zlist_eqb (map qtrunc (ef_kernel g)) [-1; 0; 1] = true).
  { rewrite (get_ok filter0 _ _ Hg). clear Hg. vm_compute. reflexivity. }
  destruct (snd (conv_edge qtrunc 16 garbage g x34 1)) as [c|] eqn:C; [|discriminate]. cbn [bind] in S.
  destruct (snd (sep_forward _ _ _ (tenth c) _)) as [y'|] eqn:Y; [|discriminate]. exists g, y'.
  split; [apply qtrunc_ok|]. split; [vm_compute; reflexivity|]. split; [now apply n_sobel|]. split; [apply even34; [exact I|lia]|].
  split; [exists (qz 0, qz 0), (qz 0, qz 0); split; [reflexivity|]; split; [reflexivity|]; exact I|].
  split. { intros i V. apply valid2 in V as [k [l [-> [Hk Hl]]]].
    assert (k = 0 \/ k = 1 \/ k = 2) as [->|[->| ->]] by lia; (assert (l = 0 \/ l = 1 \/ l = 2 \/ l = 3) as [->|[->|[->| ->]]] by lia); vm_compute; reflexivity. }
  split. { apply (component_last QcF qtrunc (qq 1 10) 16 garbage g x34 c (tenth c) y' (AxInt 1) AxNone 1 [0; 1]); auto; [vm_compute; reflexivity|apply tenth_rounded]. }
  split; [exact S2|]. split; [exact S|]. apply Qc_is_canon. vm_compute. reflexivity.
Qed.
