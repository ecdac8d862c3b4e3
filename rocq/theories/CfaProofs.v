(** Correctness of the Bayer conversions, down-sampling and pattern validation. *)
From Coq Require Import Ascii String.
From Verif Require Export IndexLemmas.
Import List. Import ListNotations.
Local Notation length := List.length.
Open Scope string_scope.
Open Scope list_scope.
Open Scope Z_scope.

Definition patterns : list string := ["GBRG"; "GRBG"; "BGGR"; "RGGB"].

(** ** check_sensor_alignment *)
Lemma upper_ascii_letter c d : In d ["R"; "G"; "B"]%char ->
  upper_ascii c = d <-> c = d \/ c = ascii_of_nat (nat_of_ascii d + 32).
Proof.
  intros H. split.
  - intros E. revert H. rewrite <- E. clear d E. destruct c as [[] [] [] [] [] [] [] []]; vm_compute; intuition congruence.
  - simpl in H. intros [->| ->]; destruct H as [<-|[<-|[<-|[]]]]; reflexivity.
Qed.

(** s is sa with some letters in lower case *)
Inductive case_variant : string -> string -> Prop :=
| CVnil : case_variant EmptyString EmptyString
| CVsame c s sa : case_variant s sa -> case_variant (String c s) (String c sa)
| CVlow c s sa : case_variant s sa -> case_variant (String (ascii_of_nat (nat_of_ascii c + 32)) s) (String c sa).

Fixpoint chars (s : string) : list ascii := match s with EmptyString => [] | String c s' => c :: chars s' end.
Lemma upper_variant sa : forall s, Forall (fun d => In d ["R"; "G"; "B"]%char) (chars sa) ->
  upper s = sa <-> case_variant s sa.
Proof.
  induction sa as [|d sa IH]; intros s H.
  - destruct s; simpl; split; intros E; try discriminate; try constructor; inversion E.
  - inv H. destruct s as [|c s]; simpl; split; intros E; try discriminate; try (now inversion E).
    + injection E as E1 E2. apply upper_ascii_letter in E1; auto. apply IH in E2; auto.
      destruct E1 as [->| ->]; constructor; auto.
    + inv E; f_equal; try (apply IH; auto; fail); apply upper_ascii_letter; auto.
Qed.
Lemma patterns_letters sa : In sa patterns -> Forall (fun d => In d ["R"; "G"; "B"]%char) (chars sa) /\ String.length sa = 4%nat.
Proof. simpl. intros [<-|[<-|[<-|[<-|[]]]]]; (split; [|reflexivity]); cbn [chars]; repeat apply Forall_cons; try apply Forall_nil; simpl; auto. Qed.
Lemma upper_length s : String.length (upper s) = String.length s.
Proof. induction s; simpl; congruence. Qed.

Lemma check_sensor_alignment_spec s :
  (exists sa, In sa patterns /\ case_variant s sa /\ check_sensor_alignment s = Ok sa)
  \/ ((forall sa, In sa patterns -> ~ case_variant s sa) /\ check_sensor_alignment s = Err AssertionError).
Proof.
  unfold check_sensor_alignment. fold patterns. remember (existsb (String.eqb (upper s)) patterns) as b eqn:E. symmetry in E.
  destruct (Nat.eqb_spec (String.length s) 4) as [L|L].
  - cbn [assertb bind]. destruct b; cbn [assertb bind].
    + left. apply existsb_exists in E as (sa & Hi & He). apply String.eqb_eq in He. exists sa. split; auto.
      split; [|now rewrite He]. apply upper_variant; auto. now apply patterns_letters.
    + right. split; auto. intros sa Hi Hv. apply upper_variant in Hv; [|now apply patterns_letters].
      assert (existsb (String.eqb (upper s)) patterns = true); [|congruence].
      apply existsb_exists. exists sa. split; auto. now apply String.eqb_eq.
  - right. split; auto. intros sa Hi Hv. apply upper_variant in Hv; [|now apply patterns_letters].
    apply L. rewrite <- upper_length, Hv. now apply patterns_letters.
Qed.
Lemma variant_unique s sa sb : In sa patterns -> In sb patterns -> case_variant s sa -> case_variant s sb -> sa = sb.
Proof.
  intros Ha Hb H1 H2. apply upper_variant in H1; [|now apply patterns_letters].
  apply upper_variant in H2; [|now apply patterns_letters]. congruence.
Qed.
Lemma check_sensor_alignment_ok s sa : In sa patterns -> case_variant s sa -> check_sensor_alignment s = Ok sa.
Proof.
  intros Hi Hv. destruct (check_sensor_alignment_spec s) as [(sb & Hb & Hvb & E)|[H _]].
  - now rewrite (variant_unique s sa sb).
  - exfalso. eapply H; eauto.
Qed.
Lemma check_sensor_alignment_inv s sa : check_sensor_alignment s = Ok sa -> In sa patterns /\ case_variant s sa.
Proof.
  intros E. destruct (check_sensor_alignment_spec s) as [(sb & Hb & Hvb & E')|[_ E']]; rewrite E in E'; [|discriminate].
  injection E' as <-. auto.
Qed.
Lemma variant_refl s : case_variant s s.
Proof. induction s; constructor; auto. Qed.

(** ** get_sensor_beg_index *)
Definition letter (p : pos) : ascii := match p with PR => "R" | PB => "B" | PGR | PGB => "G" end%char.
Lemma beg_index_spec sa : In sa patterns ->
  exists f, get_sensor_beg_index sa = Ok f /\
    (forall p, (fst (f p) = 0 \/ fst (f p) = 1) /\ (snd (f p) = 0 \/ snd (f p) = 1)) /\
    (forall p, String.get (Z.to_nat (2 * fst (f p) + snd (f p))) sa = Some (letter p)) /\
    fst (f PGR) = fst (f PR) /\ fst (f PGB) = fst (f PB) /\
    (forall p q, f p = f q -> p = q) /\
    (forall r c, r = 0 \/ r = 1 -> c = 0 \/ c = 1 -> exists p, f p = (r, c)).
Proof.
  simpl. intros [<-|[<-|[<-|[<-|[]]]]]; (eexists; split; [reflexivity|]).
  all: split; [intros []; simpl; auto|]; split; [intros []; reflexivity|]; split; [reflexivity|]; split; [reflexivity|]; split.
  all: try (intros [] []; vm_compute; intros E; congruence).
  all: intros r c [->| ->] [->| ->].
  - exists PGB; reflexivity. - exists PB; reflexivity. - exists PR; reflexivity. - exists PGR; reflexivity.
  - exists PGR; reflexivity. - exists PR; reflexivity. - exists PB; reflexivity. - exists PGB; reflexivity.
  - exists PB; reflexivity. - exists PGB; reflexivity. - exists PGR; reflexivity. - exists PR; reflexivity.
  - exists PR; reflexivity. - exists PGR; reflexivity. - exists PGB; reflexivity. - exists PB; reflexivity.
Qed.

(** ** conversions *)
Section Conv.
Context {F : ofield}.
Notation T := (tensor F).
Variables (pre : list Z) (m n : Z).
Hypothesis Hpre : nonneg pre.
Hypothesis Hm : 0 <= m.
Hypothesis Hn : 0 <= n.

Lemma nd3 : 3 <=? Z.of_nat (length pre + 3) = true.
Proof using Type. apply Z.leb_le. lia. Qed.
Lemma nd3' : (length pre + 3 - 3)%nat = length pre.
Proof using Type. lia. Qed.
Lemma check_1c_ok (x : T) : shp x = pre ++ [1; 2 * m; 2 * n] -> check_1c_bayer x = Ok tt.
Proof using Type.
  intros Hs. unfold check_1c_bayer. destruct (dim_last3 x _ _ _ _ Hs) as (-> & -> & ->).
  rewrite (ndim3 x _ _ _ _ Hs), nd3. cbn [assertb bind]. rewrite Z.eqb_refl. cbn [assertb bind]. now rewrite even2.
Qed.
Lemma check_4c_ok (x : T) a b : shp x = pre ++ [4; a; b] -> check_4c_bayer x = Ok tt.
Proof using Type.
  intros Hs. unfold check_4c_bayer. destruct (dim_last3 x _ _ _ _ Hs) as (-> & _).
  now rewrite (ndim3 x _ _ _ _ Hs), nd3.
Qed.
Lemma check_rgb_ok (x : T) a b : shp x = pre ++ [3; a; b] -> check_rgb x = Ok tt.
Proof using Type.
  intros Hs. unfold check_rgb. destruct (dim_last3 x _ _ _ _ Hs) as (-> & _).
  now rewrite (ndim3 x _ _ _ _ Hs), nd3.
Qed.

Lemma bayer_1c_to_4c_spec (x : T) : shp x = pre ++ [1; 2 * m; 2 * n] ->
  exists y, bayer_1c_to_4c x = Ok y /\ shp y = pre ++ [4; m; n] /\
    forall p r c i j, valid pre p -> r = 0 \/ r = 1 -> c = 0 \/ c = 1 -> 0 <= i < m -> 0 <= j < n ->
      at_ y (p ++ [2 * r + c; i; j]) = at_ x (p ++ [0; 2 * i + r; 2 * j + c]).
Proof using Hpre Hm Hn.
  intros Hs. unfold bayer_1c_to_4c. rewrite check_1c_ok by auto. cbn [bind phases mapM fst snd].
  destruct (get_phase pre 1 m n Hpre ltac:(lia) Hm Hn x 0 0 Hs ltac:(lia) ltac:(lia)) as (y0 & -> & S0 & V0). cbn [bind].
  destruct (get_phase pre 1 m n Hpre ltac:(lia) Hm Hn x 0 1 Hs ltac:(lia) ltac:(lia)) as (y1 & -> & S1 & V1). cbn [bind].
  destruct (get_phase pre 1 m n Hpre ltac:(lia) Hm Hn x 1 0 Hs ltac:(lia) ltac:(lia)) as (y2 & -> & S2 & V2). cbn [bind].
  destruct (get_phase pre 1 m n Hpre ltac:(lia) Hm Hn x 1 1 Hs ltac:(lia) ltac:(lia)) as (y3 & -> & S3 & V3). cbn [bind].
  rewrite (ndim3 x _ _ _ _ Hs), nd3'.
  destruct (tcat_ones [y0; y1; y2; y3] pre [m; n]) as (y & E & S & V); [congruence| |].
  { intros u [<-|[<-|[<-|[<-|[]]]]]; auto. }
  exists y. split; auto. split; auto. intros p r c i j Vp Hr Hc Hi Hj.
  rewrite (V p _ [i; j] y0) by (try (now apply valid_length); simpl length; lia).
  destruct Hr as [->| ->], Hc as [->| ->]; cbn [Z.to_nat Z.mul Z.add Pos.add Pos.mul Pos.to_nat Pos.iter_op Nat.add nth]; simpl nth.
  - now rewrite V0 by (auto; lia). - now rewrite V1 by (auto; lia). - now rewrite V2 by (auto; lia). - now rewrite V3 by (auto; lia).
Qed.

(** pixel (i, j) belongs to the block position (i mod 2, j mod 2) *)
Lemma mod2 i : i mod 2 = 0 \/ i mod 2 = 1.
Proof using Type. pose proof (Z.mod_pos_bound i 2). lia. Qed.
Lemma div2 i : 0 <= i < 2 * m -> 0 <= i / 2 < m /\ i = 2 * (i / 2) + i mod 2.
Proof using Type. intros H. pose proof (Z.div_mod i 2). pose proof (Z.mod_pos_bound i 2). split; lia. Qed.

Lemma bayer_4c_to_1c_spec junk (x : T) : shp x = pre ++ [4; m; n] ->
  exists y, bayer_4c_to_1c junk x = Ok y /\ shp y = pre ++ [1; 2 * m; 2 * n] /\
    forall p i j, valid pre p -> 0 <= i < 2 * m -> 0 <= j < 2 * n ->
      at_ y (p ++ [0; i; j]) = at_ x (p ++ [2 * (i mod 2) + j mod 2; i / 2; j / 2]).
Proof using Hpre Hm Hn.
  intros Hs. unfold bayer_4c_to_1c. rewrite (check_4c_ok x _ _ Hs). destruct (dim_last3 x _ _ _ _ Hs) as (_ & -> & ->).
  cbn [bind]. rewrite Hs, butlast3. set (e := tempty _ junk). assert (He : shp e = pre ++ [1; 2 * m; 2 * n]) by reflexivity. clearbody e.
  cbn [foldM].
  destruct (get_plane pre 4 m n Hpre ltac:(lia) Hm Hn x 0 Hs ltac:(lia)) as (v0 & -> & S0 & V0). cbn [bind].
  destruct (set_int_phase pre 1 m n Hpre ltac:(lia) Hm Hn e v0 0 0 0 He ltac:(lia) ltac:(lia) ltac:(lia) S0) as (e0 & -> & He0 & W0). cbn [bind].
  destruct (get_plane pre 4 m n Hpre ltac:(lia) Hm Hn x 1 Hs ltac:(lia)) as (v1 & -> & S1 & V1). cbn [bind].
  destruct (set_int_phase pre 1 m n Hpre ltac:(lia) Hm Hn e0 v1 0 0 1 He0 ltac:(lia) ltac:(lia) ltac:(lia) S1) as (e1 & -> & He1 & W1). cbn [bind].
  destruct (get_plane pre 4 m n Hpre ltac:(lia) Hm Hn x 2 Hs ltac:(lia)) as (v2 & -> & S2 & V2). cbn [bind].
  destruct (set_int_phase pre 1 m n Hpre ltac:(lia) Hm Hn e1 v2 0 1 0 He1 ltac:(lia) ltac:(lia) ltac:(lia) S2) as (e2 & -> & He2 & W2). cbn [bind].
  destruct (get_plane pre 4 m n Hpre ltac:(lia) Hm Hn x 3 Hs ltac:(lia)) as (v3 & -> & S3 & V3). cbn [bind].
  destruct (set_int_phase pre 1 m n Hpre ltac:(lia) Hm Hn e2 v3 0 1 1 He2 ltac:(lia) ltac:(lia) ltac:(lia) S3) as (e3 & -> & He3 & W3). cbn [bind].
  exists e3. split; auto. split; auto. intros p i j Vp Hi Hj.
  destruct (div2 i Hi) as [Di Ei]. assert (Dj : 0 <= j / 2 < n) by (split; [apply Z.div_pos|apply Z.div_lt_upper_bound]; lia).
  rewrite W3, W2, W1, W0 by (auto; lia).
  destruct (mod2 i) as [Mi|Mi], (mod2 j) as [Mj|Mj]; rewrite Mi, Mj; simpl;
    first [rewrite V0 by auto | rewrite V1 by auto | rewrite V2 by auto | rewrite V3 by auto]; reflexivity.
Qed.

(** channel named by the pattern at block position q *)
Definition chan (sa : string) (q : Z) : Z :=
  match String.get (Z.to_nat q) sa with
  | Some c => if Ascii.eqb c "R" then 0 else if Ascii.eqb c "G" then 1 else 2
  | None => 0
  end.
Lemma chan_ok sa q : In sa patterns -> 0 <= q < 4 ->
  (c <- str_get sa q ;; color_index c) = Ok (chan sa q) /\ 0 <= chan sa q < 3.
Proof using Type.
  intros Hi Hq. assert (q = 0 \/ q = 1 \/ q = 2 \/ q = 3) as Q by lia. simpl in Hi.
  destruct Hi as [<-|[<-|[<-|[<-|[]]]]], Q as [->|[->|[->| ->]]]; (split; [reflexivity|split; vm_compute; congruence]).
Qed.
Lemma chan_bind {B} sa q (k : Z -> res B) : In sa patterns -> 0 <= q < 4 ->
  (ch <- str_get sa q ;; c <- color_index ch ;; k c) = k (chan sa q).
Proof using Type.
  intros Hi Hq. destruct (chan_ok sa q Hi Hq) as [E _]. destruct (str_get sa q); simpl in *; [|discriminate]. rewrite E. reflexivity.
Qed.

Lemma rgb_to_1c_spec junk (x : T) s sa : shp x = pre ++ [3; 2 * m; 2 * n] -> In sa patterns -> case_variant s sa ->
  exists y, rgb_to_1c_bayer junk x s = Ok y /\ shp y = pre ++ [1; 2 * m; 2 * n] /\
    forall p i j, valid pre p -> 0 <= i < 2 * m -> 0 <= j < 2 * n ->
      at_ y (p ++ [0; i; j]) = at_ x (p ++ [chan sa (2 * (i mod 2) + j mod 2); i; j]).
Proof using Hpre Hm Hn.
  intros Hs Hsa Hv. unfold rgb_to_1c_bayer. rewrite (check_rgb_ok x _ _ Hs). destruct (dim_last3 x _ _ _ _ Hs) as (_ & -> & ->).
  rewrite (check_sensor_alignment_ok s sa Hsa Hv). cbn [bind]. rewrite even2. cbn [assertb bind].
  rewrite Hs, butlast3. set (e := tempty _ junk). assert (He : shp e = pre ++ [1; 2 * m; 2 * n]) by reflexivity. clearbody e.
  cbn [phases foldM]. 
  assert (C : forall q, 0 <= q < 4 -> 0 <= chan sa q < 3) by (intros; now apply chan_ok).
  repeat rewrite (chan_bind sa) by (auto; lia).
  destruct (get_int_phase pre 3 m n Hpre ltac:(lia) Hm Hn x (chan sa (0 * 2 + 0)) 0 0 Hs) as (v0 & -> & S0 & V0); [apply C; lia|lia|lia|]. cbn [bind].
  destruct (set_int_phase pre 1 m n Hpre ltac:(lia) Hm Hn e v0 0 0 0 He ltac:(lia) ltac:(lia) ltac:(lia) S0) as (e0 & -> & He0 & W0). cbn [bind].
  repeat rewrite (chan_bind sa) by (auto; lia).
  destruct (get_int_phase pre 3 m n Hpre ltac:(lia) Hm Hn x (chan sa (0 * 2 + 1)) 0 1 Hs) as (v1 & -> & S1 & V1); [apply C; lia|lia|lia|]. cbn [bind].
  destruct (set_int_phase pre 1 m n Hpre ltac:(lia) Hm Hn e0 v1 0 0 1 He0 ltac:(lia) ltac:(lia) ltac:(lia) S1) as (e1 & -> & He1 & W1). cbn [bind].
  repeat rewrite (chan_bind sa) by (auto; lia).
  destruct (get_int_phase pre 3 m n Hpre ltac:(lia) Hm Hn x (chan sa (1 * 2 + 0)) 1 0 Hs) as (v2 & -> & S2 & V2); [apply C; lia|lia|lia|]. cbn [bind].
  destruct (set_int_phase pre 1 m n Hpre ltac:(lia) Hm Hn e1 v2 0 1 0 He1 ltac:(lia) ltac:(lia) ltac:(lia) S2) as (e2 & -> & He2 & W2). cbn [bind].
  repeat rewrite (chan_bind sa) by (auto; lia).
  destruct (get_int_phase pre 3 m n Hpre ltac:(lia) Hm Hn x (chan sa (1 * 2 + 1)) 1 1 Hs) as (v3 & -> & S3 & V3); [apply C; lia|lia|lia|]. cbn [bind].
  destruct (set_int_phase pre 1 m n Hpre ltac:(lia) Hm Hn e2 v3 0 1 1 He2 ltac:(lia) ltac:(lia) ltac:(lia) S3) as (e3 & -> & He3 & W3). cbn [bind].
  exists e3. split; auto. split; auto. intros p i j Vp Hi Hj.
  destruct (div2 i Hi) as [Di Ei]. assert (Dj : 0 <= j / 2 < n) by (split; [apply Z.div_pos|apply Z.div_lt_upper_bound]; lia).
  assert (Ej : j = 2 * (j / 2) + j mod 2) by (apply Z.div_mod; lia).
  rewrite W3, W2, W1, W0 by (auto; lia).
  destruct (mod2 i) as [Mi|Mi], (mod2 j) as [Mj|Mj]; rewrite Mi, Mj in *; cbn [Z.eqb andb Pos.eqb];
    first [rewrite V0 by auto | rewrite V1 by auto | rewrite V2 by auto | rewrite V3 by auto]; 
    rewrite <- Ei, <- Ej; reflexivity.
Qed.

Lemma rgb_to_4c_spec (x : T) s sa : shp x = pre ++ [3; 2 * m; 2 * n] -> In sa patterns -> case_variant s sa ->
  exists y, rgb_to_4c_bayer x s = Ok y /\ shp y = pre ++ [4; m; n] /\
    forall p r c i j, valid pre p -> r = 0 \/ r = 1 -> c = 0 \/ c = 1 -> 0 <= i < m -> 0 <= j < n ->
      at_ y (p ++ [2 * r + c; i; j]) = at_ x (p ++ [chan sa (2 * r + c); 2 * i + r; 2 * j + c]).
Proof using Hpre Hm Hn.
  intros Hs Hsa Hv. unfold rgb_to_4c_bayer. rewrite (check_rgb_ok x _ _ Hs). destruct (dim_last3 x _ _ _ _ Hs) as (_ & -> & ->).
  rewrite (check_sensor_alignment_ok s sa Hsa Hv). cbn [bind]. rewrite even2. cbn [assertb bind phases mapM].
  assert (C : forall q, 0 <= q < 4 -> 0 <= chan sa q < 3) by (intros; now apply chan_ok).
  rewrite (chan_bind sa) by (auto; lia).
  destruct (get_int_phase pre 3 m n Hpre ltac:(lia) Hm Hn x (chan sa (0 * 2 + 0)) 0 0 Hs) as (v0 & -> & S0 & V0); [apply C; lia|lia|lia|]. cbn [bind].
  rewrite (chan_bind sa) by (auto; lia).
  destruct (get_int_phase pre 3 m n Hpre ltac:(lia) Hm Hn x (chan sa (0 * 2 + 1)) 0 1 Hs) as (v1 & -> & S1 & V1); [apply C; lia|lia|lia|]. cbn [bind].
  rewrite (chan_bind sa) by (auto; lia).
  destruct (get_int_phase pre 3 m n Hpre ltac:(lia) Hm Hn x (chan sa (1 * 2 + 0)) 1 0 Hs) as (v2 & -> & S2 & V2); [apply C; lia|lia|lia|]. cbn [bind].
  rewrite (chan_bind sa) by (auto; lia).
  destruct (get_int_phase pre 3 m n Hpre ltac:(lia) Hm Hn x (chan sa (1 * 2 + 1)) 1 1 Hs) as (v3 & -> & S3 & V3); [apply C; lia|lia|lia|]. cbn [bind].
  rewrite (ndim3 x _ _ _ _ Hs), nd3'.
  destruct (tstack_spec [v0; v1; v2; v3] pre [m; n]) as (y & E & S & V); [congruence| |].
  { intros u [<-|[<-|[<-|[<-|[]]]]]; auto. }
  exists y. split; auto. split; auto. intros p r c i j Vp Hr Hc Hi Hj.
  rewrite (V p _ [i; j] v0) by (try (now apply valid_length); simpl length; lia).
  destruct Hr as [->| ->], Hc as [->| ->]; simpl nth.
  - now rewrite V0 by (auto; lia). - now rewrite V1 by (auto; lia). - now rewrite V2 by (auto; lia). - now rewrite V3 by (auto; lia).
Qed.

(** ** down-sampling *)
Lemma downsample_4c_spec (x : T) s sa qr qg qg' qb :
  shp x = pre ++ [4; m; n] -> In sa patterns -> case_variant s sa ->
  0 <= qr < 4 -> 0 <= qg < 4 -> 0 <= qg' < 4 -> 0 <= qb < 4 -> qg <> qg' ->
  chan sa qr = 0 -> chan sa qg = 1 -> chan sa qg' = 1 -> chan sa qb = 2 ->
  exists y, downsample_4c_bayer_to_rgb x s = Ok y /\ shp y = pre ++ [3; m; n] /\
    forall p i j, valid pre p -> 0 <= i < m -> 0 <= j < n ->
      at_ y (p ++ [0; i; j]) = at_ x (p ++ [qr; i; j]) /\
      at_ y (p ++ [1; i; j]) = fdiv (fadd (at_ x (p ++ [qg; i; j])) (at_ x (p ++ [qg'; i; j]))) (fofZ 2) /\
      at_ y (p ++ [2; i; j]) = at_ x (p ++ [qb; i; j]).
Proof using Hpre Hm Hn.
  intros Hs Hsa Hv H1 H2 H3 H4 Hne C1 C2 C3 C4. unfold downsample_4c_bayer_to_rgb.
  rewrite (check_sensor_alignment_ok s sa Hsa Hv), (check_4c_ok x _ _ Hs). cbn [bind].
  assert (Q : exists g g', str_index sa "R" = Ok qr /\ str_index sa "G" = Ok g /\ str_rindex sa "G" = Ok g' /\ str_index sa "B" = Ok qb
    /\ 0 <= g < 4 /\ 0 <= g' < 4 /\ (g = qg /\ g' = qg' \/ g = qg' /\ g' = qg)).
  { clear - Hsa H1 H2 H3 H4 Hne C1 C2 C3 C4.
    assert (Z4 : forall q, 0 <= q < 4 -> q = 0 \/ q = 1 \/ q = 2 \/ q = 3) by lia.
    apply Z4 in H1, H2, H3, H4.
    destruct Hsa as [<-|[<-|[<-|[<-|[]]]]].
    - exists 0, 3. destruct H1 as [->|[->|[->| ->]]]; try discriminate C1. destruct H4 as [->|[->|[->| ->]]]; try discriminate C4.
      destruct H2 as [->|[->|[->| ->]]]; try discriminate C2; destruct H3 as [->|[->|[->| ->]]]; try discriminate C3; try congruence; cbn; intuition lia.
    - exists 0, 3. destruct H1 as [->|[->|[->| ->]]]; try discriminate C1. destruct H4 as [->|[->|[->| ->]]]; try discriminate C4.
      destruct H2 as [->|[->|[->| ->]]]; try discriminate C2; destruct H3 as [->|[->|[->| ->]]]; try discriminate C3; try congruence; cbn; intuition lia.
    - exists 1, 2. destruct H1 as [->|[->|[->| ->]]]; try discriminate C1. destruct H4 as [->|[->|[->| ->]]]; try discriminate C4.
      destruct H2 as [->|[->|[->| ->]]]; try discriminate C2; destruct H3 as [->|[->|[->| ->]]]; try discriminate C3; try congruence; cbn; intuition lia.
    - exists 1, 2. destruct H1 as [->|[->|[->| ->]]]; try discriminate C1. destruct H4 as [->|[->|[->| ->]]]; try discriminate C4.
      destruct H2 as [->|[->|[->| ->]]]; try discriminate C2; destruct H3 as [->|[->|[->| ->]]]; try discriminate C3; try congruence; cbn; intuition lia. }
  destruct Q as (g & g' & -> & -> & -> & -> & Hg & Hg' & HQ). cbn [bind].
  destruct (get_plane pre 4 m n Hpre ltac:(lia) Hm Hn x qr Hs H1) as (v0 & -> & S0 & V0). cbn [bind].
  destruct (get_plane pre 4 m n Hpre ltac:(lia) Hm Hn x g Hs Hg) as (v1 & -> & S1 & V1). cbn [bind].
  destruct (get_plane pre 4 m n Hpre ltac:(lia) Hm Hn x g' Hs Hg') as (v2 & -> & S2 & V2). cbn [bind].
  destruct (tmap2_same fadd v1 v2) as (u & -> & Su & Vu); [congruence|]. cbn [bind].
  destruct (get_plane pre 4 m n Hpre ltac:(lia) Hm Hn x qb Hs H4) as (v3 & -> & S3 & V3). cbn [bind].
  rewrite (ndim3 x _ _ _ _ Hs), nd3'.
  destruct (tstack_spec [v0; tmap (fun e => fdiv e (fofZ 2)) u; v3] pre [m; n]) as (y & E & S & V); [congruence| |].
  { intros w [<-|[<-|[<-|[]]]]; auto. simpl. congruence. }
  exists y. split; auto. split; auto. intros p i j Vp Hi Hj.
  assert (Lp := valid_length _ _ Vp). rewrite !(V p _ [i; j] v0) by (auto; simpl length; lia).
  simpl nth. cbn [at_ tmap]. rewrite V0, V3, Vu, V1, V2 by (rewrite ?S1; auto; apply valid_app; auto; apply valid2_i; auto).
  split; auto. split; auto. destruct HQ as [[-> ->]|[-> ->]]; auto.
  f_equal. apply (Radd_comm (F_R (f_field F))).
Qed.
End Conv.
