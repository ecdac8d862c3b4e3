(** Model of torchimage/cfa: validation, conversions between Bayer formats, down-sampling,
    BayerConv2d and demosaicing. *)
From Coq Require Import Ascii String.
From Verif Require Export IndexOps.
Open Scope string_scope.
Open Scope list_scope.
Open Scope Z_scope.

Fixpoint foldM {A B} (f : A -> B -> res A) (l : list B) (a : A) : res A :=
  match l with [] => Ok a | b :: l' => a' <- f a b ;; foldM f l' a' end.

(** * cfa/utils/validation.py *)

(** [str.upper] on ASCII strings (no other character has R, G or B as its upper case). *)
Definition upper_ascii (c : ascii) : ascii :=
  let n := nat_of_ascii c in
  if Nat.leb 97 n && Nat.leb n 122 then ascii_of_nat (n - 32) else c.
Fixpoint upper (s : string) : string :=
  match s with EmptyString => EmptyString | String c s' => String (upper_ascii c) (upper s') end.

(** cfa/utils/validation.py:11-42 [check_sensor_alignment] *)
Definition check_sensor_alignment (s : string) : res string :=
  _ <- assertb (Nat.eqb (String.length s) 4) ;;
  let s := upper s in
  _ <- assertb (existsb (String.eqb s) ["GBRG"; "GRBG"; "BGGR"; "RGGB"]) ;;
  Ok s.

(** [s.index(c)], [s.rindex(c)] *)
Fixpoint find_from (c : ascii) (s : string) (k : Z) : option Z :=
  match s with
  | EmptyString => None
  | String d s' => if Ascii.eqb c d then Some k else find_from c s' (k + 1)
  end.
Fixpoint rfind_from (c : ascii) (s : string) (k : Z) (last : option Z) : option Z :=
  match s with
  | EmptyString => last
  | String d s' => rfind_from c s' (k + 1) (if Ascii.eqb c d then Some k else last)
  end.
Definition str_index (s : string) (c : ascii) : res Z :=
  match find_from c s 0 with Some k => Ok k | None => Err ValueError end.
Definition str_rindex (s : string) (c : ascii) : res Z :=
  match rfind_from c s 0 None with Some k => Ok k | None => Err ValueError end.
(** [s[k]] for a nonnegative k *)
Definition str_get (s : string) (k : Z) : res ascii :=
  match String.get (Z.to_nat k) s with Some c => Ok c | None => Err IndexError end.
(** [_color_dict[c]] (rgb_to_bayer.py:28-32, bayer_conv_2d.py:15-19); a KeyError is not reachable. *)
Definition color_index (c : ascii) : res Z :=
  if Ascii.eqb c "R" then Ok 0 else if Ascii.eqb c "G" then Ok 1 else if Ascii.eqb c "B" then Ok 2 else Err IndexError.

(** [x.shape[-k]] *)
Definition dim_last {A} (x : tensor A) (k : Z) : res Z := pyidx (shp x) (- k).

Section Cfa.
Context {F : ofield}.
Notation T := (tensor F).

(** cfa/utils/validation.py:45-65 [check_1c_bayer] *)
Definition check_1c_bayer (x : T) : res unit :=
  _ <- assertb (3 <=? Z.of_nat (ndim x)) ;;
  c <- dim_last x 3 ;; _ <- assertb (c =? 1) ;;
  h <- dim_last x 2 ;; w <- dim_last x 1 ;;
  assertb ((h mod 2 =? w mod 2) && (w mod 2 =? 0)).
(** cfa/utils/validation.py:68-86 [check_4c_bayer] *)
Definition check_4c_bayer (x : T) : res unit :=
  _ <- assertb (3 <=? Z.of_nat (ndim x)) ;;
  c <- dim_last x 3 ;; assertb (c =? 4).
(** cfa/utils/validation.py:89-110 [check_rgb] *)
Definition check_rgb (x : T) : res unit :=
  _ <- assertb (3 <=? Z.of_nat (ndim x)) ;;
  c <- dim_last x 3 ;; assertb (c =? 3).

(** * cfa/utils/bayer_1c_4c.py *)

(** [r::2] *)
Definition step2 (r : Z) : slice := mkS (Some r) None 2.
(** [for r in 0, 1: for c in 0, 1] *)
Definition phases : list (Z * Z) := [(0, 0); (0, 1); (1, 0); (1, 1)].

(** bayer_1c_4c.py:36-60 [bayer_1c_to_4c] *)
Definition bayer_1c_to_4c (x : T) : res T :=
  _ <- check_1c_bayer x ;;
  l <- mapM (fun rc => tgetx x (ell (ndim x) [ISl (step2 (fst rc)); ISl (step2 (snd rc))])) phases ;;
  tcat (ndim x - 3) l.

(** bayer_1c_4c.py:63-89 [bayer_4c_to_1c]; channel_index = 0, 1, 2, 3 in the order of the loop. *)
Definition bayer_4c_to_1c (junk : list Z -> F) (x : T) : res T :=
  _ <- check_4c_bayer x ;;
  h <- dim_last x 2 ;; w <- dim_last x 1 ;;
  let y := tempty (butlast 3 (shp x) ++ [1; 2 * h; 2 * w]) junk in
  foldM (fun y rck =>
      let '(r, c, k) := rck in
      v <- tgetx x (ell (ndim x) [IInt k; ISl sfull; ISl sfull]) ;;
      tsetx y (ell (ndim y) [IInt 0; ISl (step2 r); ISl (step2 c)]) v)
    [(0, 0, 0); (0, 1, 1); (1, 0, 2); (1, 1, 3)] y.

(** * cfa/utils/rgb_to_bayer.py *)

(** rgb_to_bayer.py:35-65 [rgb_to_1c_bayer] *)
Definition rgb_to_1c_bayer (junk : list Z -> F) (x : T) (sa : string) : res T :=
  _ <- check_rgb x ;;
  sa <- check_sensor_alignment sa ;;
  h <- dim_last x 2 ;; w <- dim_last x 1 ;;
  _ <- assertb ((h mod 2 =? w mod 2) && (w mod 2 =? 0)) ;;
  let y := tempty (butlast 3 (shp x) ++ [1; h; w]) junk in
  foldM (fun y rc =>
      let '(r, c) := rc in
      ch <- str_get sa (r * 2 + c) ;;
      k <- color_index ch ;;
      v <- tgetx x (ell (ndim x) [IInt k; ISl (step2 r); ISl (step2 c)]) ;;
      tsetx y (ell (ndim y) [IInt 0; ISl (step2 r); ISl (step2 c)]) v) phases y.

(** rgb_to_bayer.py:68-99 [rgb_to_4c_bayer]; torch.stack(dim=-3) of tensors with ndim - 1 axes
    inserts the new axis at ndim - 3. *)
Definition rgb_to_4c_bayer (x : T) (sa : string) : res T :=
  _ <- check_rgb x ;;
  sa <- check_sensor_alignment sa ;;
  h <- dim_last x 2 ;; w <- dim_last x 1 ;;
  _ <- assertb ((h mod 2 =? w mod 2) && (w mod 2 =? 0)) ;;
  l <- mapM (fun rc : Z * Z =>
      let '(r, c) := rc in
      ch <- str_get sa (r * 2 + c) ;;
      k <- color_index ch ;;
      tgetx x (ell (ndim x) [IInt k; ISl (step2 r); ISl (step2 c)])) phases ;;
  tstack (ndim x - 3) l.

(** * cfa/utils/bayer_to_rgb.py *)

(** bayer_to_rgb.py:44-72 [downsample_4c_bayer_to_rgb] *)
Definition downsample_4c_bayer_to_rgb (x : T) (sa : string) : res T :=
  sa <- check_sensor_alignment sa ;;
  _ <- check_4c_bayer x ;;
  let plane k := tgetx x (ell (ndim x) [IInt k; ISl sfull; ISl sfull]) in
  kr <- str_index sa "R" ;; kg <- str_index sa "G" ;; kg' <- str_rindex sa "G" ;; kb <- str_index sa "B" ;;
  r <- plane kr ;; g <- plane kg ;; g' <- plane kg' ;; s <- tmap2 fadd g g' ;;
  b <- plane kb ;;
  tstack (ndim x - 3) [r; tmap (fun e => fdiv e (fofZ 2)) s; b].
(** bayer_to_rgb.py:19-41 [downsample_1c_bayer_to_rgb] *)
Definition downsample_1c_bayer_to_rgb (x : T) (sa : string) : res T :=
  y <- bayer_1c_to_4c x ;; downsample_4c_bayer_to_rgb y sa.

(** * cfa/bayer_conv/bayer_conv_2d.py *)

(** bayer_conv_2d.py:11 relative positions *)
Inductive pos := PR | PB | PGR | PGB.
Definition relative_positions : list pos := [PR; PB; PGR; PGB].

(** bayer_conv_2d.py:44-55 [get_sensor_beg_index] *)
Definition get_sensor_beg_index (sa : string) : res (pos -> Z * Z) :=
  kr <- str_index sa "R" ;; kb <- str_index sa "B" ;;
  let r := (kr / 2, kr mod 2) in
  let b := (kb / 2, kb mod 2) in
  Ok (fun p => match p with
               | PR => r | PB => b
               | PGR => (fst r, 1 - snd r) | PGB => (fst b, 1 - snd b)
               end).

(** bayer_conv_2d.py:22-41 [get_padding_layer], applied to x *)
Definition bayer_pad {A} (kernel_size beg_row beg_col : Z) (x : tensor A) : res (tensor A) :=
  let offset := kernel_size / 2 in
  let pad_top := offset - beg_row in
  let pad_bottom := (offset + 1) - (2 - beg_row) in
  let pad_left := offset - beg_col in
  let pad_right := (offset + 1) - (2 - beg_col) in
  reflection_pad2d pad_left pad_right pad_top pad_bottom x.

(** State of a BayerConv2d (bayer_conv_2d.py:58-83): one convolution per relative position. *)
Record bayer_conv := mkBC {
  bc_in : Z; bc_out : Z; bc_k : Z;
  bc_w : pos -> Z -> Z -> Z -> Z -> F;
  bc_bias : option (pos -> Z -> F)
}.
(** [conv(pad(x))] for the position class p at absolute position (r, c).  The padding layers exist for
    r, c in {0, 1}, the only values of [get_sensor_beg_index]. *)
Definition bayer_branch (m : bayer_conv) (p : pos) (r c : Z) (x : T) : res T :=
  xp <- bayer_pad (bc_k m) r c x ;;
  conv2d (bc_in m) (bc_out m) (bc_k m) 2 (bc_w m p)
         (match bc_bias m with None => None | Some b => Some (b p) end) xp.

(** bayer_conv_2d.py:85-100 [BayerConv2d.forward] *)
Definition bayer_forward (junk : list Z -> F) (m : bayer_conv) (x : T) (sa : string) : res T :=
  let y := tempty (butlast 3 (shp x) ++ [bc_out m] ++ lastn 2 (shp x)) junk in
  sa <- check_sensor_alignment sa ;;
  beg <- get_sensor_beg_index sa ;;
  foldM (fun y p =>
      let '(r, c) := beg p in
      v <- bayer_branch m p r c x ;;
      tsetx y (ell (ndim y) [ISl (step2 r); ISl (step2 c)]) v) relative_positions y.

(** bayer_conv_2d.py:102-121 [forward_unshuffle] *)
Definition bayer_forward_unshuffle (junk : list Z -> F) (m : bayer_conv) (x : T) (sa : string) : res T :=
  n <- pyidx (shp x) 0 ;; h <- dim_last x 2 ;; w <- dim_last x 1 ;;
  let y := tempty [n; bc_out m * 4; h / 2; w / 2] junk in
  sa <- check_sensor_alignment sa ;;
  beg <- get_sensor_beg_index sa ;;
  foldM (fun y p =>
      let '(r, c) := beg p in
      v <- bayer_branch m p r c x ;;
      tsetx y [ISl sfull; ISl (mkS (Some (r * 2 + c)) None 4); ISl sfull; ISl sfull] v) relative_positions y.

(** pos_rel[0] as a channel number, and the two other channels in the order of "RGB". *)
Definition pos_color (p : pos) : Z := match p with PR => 0 | PB => 2 | PGR | PGB => 1 end.
Definition pos_others (p : pos) : Z * Z := match p with PR => (1, 2) | PB => (0, 1) | PGR | PGB => (0, 2) end.

(** [[k]] as an index entry: like the slice k:k+1, but only for a channel number that exists. *)
Definition ilist1 (k : Z) : ix := ISl (srng k (k + 1)).
Definition has_channel (x : T) (k : Z) : res unit :=
  n <- pyidx (shp x) (-3) ;; if (0 <=? k) && (k <? n) then Ok tt else Err IndexError.

(** bayer_conv_2d.py:124-143 [last_step_demosaic] *)
Definition last_step_demosaic (junk : list Z -> F) (x y : T) (sa : string) : res T :=
  sa <- check_sensor_alignment sa ;;
  beg <- get_sensor_beg_index sa ;;
  _ <- assertb (all2 Z.eqb (butlast 3 (shp x)) (butlast 3 (shp y)) && all2 Z.eqb (lastn 2 (shp x)) (lastn 2 (shp y))) ;;
  let ret := tempty (butlast 3 (shp x) ++ [3] ++ lastn 2 (shp x)) junk in
  foldM (fun ret p =>
      let '(r, c) := beg p in
      let at3 k := ell (ndim ret) [ilist1 k; ISl (step2 r); ISl (step2 c)] in
      v <- tgetx x (ell (ndim x) [ISl sfull; ISl (step2 r); ISl (step2 c)]) ;;
      ret <- tsetx ret (at3 (pos_color p)) v ;;
      _ <- has_channel y 0 ;;
      v0 <- tgetx y (ell (ndim y) [ilist1 0; ISl (step2 r); ISl (step2 c)]) ;;
      ret <- tsetx ret (at3 (fst (pos_others p))) v0 ;;
      _ <- has_channel y 1 ;;
      v1 <- tgetx y (ell (ndim y) [ilist1 1; ISl (step2 r); ISl (step2 c)]) ;;
      tsetx ret (at3 (snd (pos_others p))) v1) relative_positions ret.

(** [t.clamp(lo, hi)] *)
Definition fclamp (lo hi v : F) : F :=
  let u := if fleb lo v then v else lo in if fleb u hi then u else hi.

(** bayer_conv_2d.py:146-174 [PreTrainedBilinearInterpolator]: weight_dict[color + pos_rel], a square matrix
    given by its size and rows. *)
Definition matrix := list (list F).
Definition mat_at (m : matrix) (a b : Z) : F := nth (Z.to_nat b) (nth (Z.to_nat a) m []) f0.
Definition interpolator (k : Z) (wd : Z -> pos -> matrix) : bayer_conv :=
  mkBC 1 2 k (fun p o _ a b => mat_at (wd (if o =? 0 then fst (pos_others p) else snd (pos_others p)) p) a b) None.
Definition demosaic_with (m : bayer_conv) (junk1 junk2 : list Z -> F) (x : T) (sa : string) (clamp : F) : res T :=
  y <- bayer_forward junk1 m x sa ;;
  r <- last_step_demosaic junk2 x y sa ;;
  Ok (tmap (fclamp f0 clamp) r).

(** * cfa/bayer_conv/gradient_corrected.py *)
Definition q8 (n : Z) : F := fdiv (fofZ n) (fofZ 16).
(** gradient_corrected.py:15-21, entries times 2 over 16 *)
Definition wf0 : matrix := map (map q8)
  [[0; 0; -2; 0; 0]; [0; 0; 4; 0; 0]; [-2; 4; 8; 4; -2]; [0; 0; 4; 0; 0]; [0; 0; -2; 0; 0]].
(** gradient_corrected.py:24-30 *)
Definition wf1 : matrix := map (map q8)
  [[0; 0; 1; 0; 0]; [0; -2; 0; -2; 0]; [-2; 8; 10; 8; -2]; [0; -2; 0; -2; 0]; [0; 0; 1; 0; 0]].
(** gradient_corrected.py:33 (transpose of wf1) *)
Definition transpose (k : nat) (m : matrix) : matrix :=
  map (fun b => map (fun a => mat_at m (Z.of_nat a) (Z.of_nat b)) (seq 0 k)) (seq 0 k).
Definition wf2 : matrix := transpose 5 wf1.
(** gradient_corrected.py:36-42 *)
Definition wf3 : matrix := map (map q8)
  [[0; 0; -3; 0; 0]; [0; 4; 0; 4; 0]; [-3; 0; 12; 0; -3]; [0; 4; 0; 4; 0]; [0; 0; -3; 0; 0]].
(** gradient_corrected.py:49-54: keys colour + position (GR = "G" at "R", BGR = "B" at "GR", ...). *)
Definition wf_dict (color : Z) (p : pos) : matrix :=
  match p with
  | PR => if color =? 1 then wf0 else wf3
  | PB => if color =? 1 then wf0 else wf3
  | PGR => if color =? 0 then wf1 else wf2
  | PGB => if color =? 2 then wf1 else wf2
  end.
(** gradient_corrected.py:56 *)
Definition gradient_corrected_interpolator : bayer_conv := interpolator 5 wf_dict.
Definition demosaic := demosaic_with gradient_corrected_interpolator.
End Cfa.
Arguments bayer_conv F : clear implicits.
Arguments q8 {F} n : simpl never.
