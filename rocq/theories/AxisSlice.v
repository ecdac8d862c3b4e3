(** Which axes a slice selects (C23). *)
From Verif Require Export PadUtilProofs.
Open Scope Z_scope.

(** [sliced nd s a]: range(nd)[s] contains a.  Bounds count from the end when negative; the first
    element is the bound [start] or else the first (last, for a negative step) axis, cut to the axes. *)
Definition sliced (nd : Z) (s : slice) (a : Z) : Prop :=
  0 <= a < nd /\
  if 0 <? s_st s then
    match s_lo s with None => a mod s_st s = 0 | Some i => norm_axis nd i <= a /\ (a - Z.max 0 (norm_axis nd i)) mod s_st s = 0 end /\
    match s_hi s with None => True | Some i => a < norm_axis nd i end
  else
    match s_lo s with
    | None => (nd - 1 - a) mod (- s_st s) = 0
    | Some i => a <= norm_axis nd i /\ (Z.min (nd - 1) (norm_axis nd i) - a) mod (- s_st s) = 0
    end /\
    match s_hi s with None => True | Some i => norm_axis nd i < a end.

Lemma steps_iff st lo hi a : 0 < st -> ((exists k, 0 <= k < Z.max 0 ((hi - lo + st - 1) / st) /\ a = lo + k * st) <-> lo <= a < hi /\ (a - lo) mod st = 0).
Proof.
  intros Hs. split.
  - intros [k [Hk ->]]. pose proof (Z.mul_div_le (hi - lo + st - 1) st Hs). split; [nia|]. replace (lo + k * st - lo) with (k * st) by ring. apply Z.mod_mul. lia.
  - intros [Ha Hm]. exists ((a - lo) / st). pose proof (Z.div_mod (a - lo) st ltac:(lia)) as D. split; [|nia].
    assert (0 <= (a - lo) / st) by (apply Z.div_pos; lia). assert ((a - lo) / st < (hi - lo + st - 1) / st); [|lia].
    apply Z.lt_le_trans with ((a - lo) / st + 1); [lia|]. apply Z.div_le_lower_bound; [lia|]. nia.
Qed.
Theorem slice_members nd s l : 0 <= nd -> check_axes nd (AxSlice s) = Ok l -> forall a, In a l <-> sliced nd s a.
Proof.
  intros Hn E a. cbn [check_axes] in E. unfold range_slice in E. destruct (Z.eqb_spec (s_st s) 0) as [|Hs]; [discriminate|].
  unfold sliced. destruct (Z.ltb_spec 0 (s_st s)) as [Hp|Hp].
  - cbv zeta in E. injection E as <-. rewrite in_map_iff.
    transitivity (exists k, 0 <= k < r_len (resolve nd s) /\ a = rpos (resolve nd s) k).
    { split; intros [k [H1 H2]]; exists k; [rewrite In_zrange in H2|rewrite In_zrange]; auto. }
    unfold rpos, resolve. cbn [r_lo r_len r_st]. rewrite steps_iff by auto. unfold clampi, norm_axis. destruct (s_lo s) as [i|]; destruct (s_hi s) as [j|].
    + replace (j + nd) with (nd + j) by lia. replace (i + nd) with (nd + i) by lia. set (u := if i <? 0 then _ else _). set (v := if j <? 0 then _ else _).
      destruct (Z.leb_spec u nd); [replace (Z.max 0 (Z.min nd u)) with (Z.max 0 u) by lia|]; intuition lia.
    + replace (i + nd) with (nd + i) by lia. set (u := if i <? 0 then _ else _).
      destruct (Z.leb_spec u nd); [replace (Z.max 0 (Z.min nd u)) with (Z.max 0 u) by lia|]; intuition lia.
    + replace (j + nd) with (nd + j) by lia. set (v := if j <? 0 then _ else _). rewrite Z.sub_0_r. intuition lia.
    + rewrite Z.sub_0_r. intuition lia.
  - set (start := match s_lo s with None => nd - 1 | Some i => clamp_down nd i end) in E. set (stop := match s_hi s with None => -1 | Some i => clamp_down nd i end) in E.
    cbv zeta in E. injection E as <-. rewrite in_map_iff.
    transitivity (stop < a <= start /\ (start - a) mod (- s_st s) = 0).
    { pose proof (steps_iff (- s_st s) (- start) (- stop) (- a) ltac:(lia)) as Q. replace (- a - - start) with (start - a) in Q by lia.
      assert (L : Z.max 0 ((- stop - - start + - s_st s - 1) / - s_st s) = if stop <? start then (start - stop - 1) / - s_st s + 1 else 0).
      { replace (- stop - - start + - s_st s - 1) with (start - stop - 1 + 1 * - s_st s) by lia. rewrite Z.div_add by lia. destruct (Z.ltb_spec stop start).
        - assert (0 <= (start - stop - 1) / - s_st s) by (apply Z.div_pos; lia). lia.
        - assert ((start - stop - 1) / - s_st s < 0) by (apply Z.div_lt_upper_bound; lia). lia. }
      rewrite L in Q. split.
      - intros [k [H1 H2]]. apply In_zrange in H2. apply proj1 in Q. destruct Q as [Q1 Q2]; [exists k; split; auto; lia|]. split; [lia|exact Q2].
      - intros [H1 H2]. assert (H3 : - start <= - a < - stop) by lia. destruct (proj2 Q (conj H3 H2)) as [k [K1 K2]]. exists k. rewrite In_zrange. split; [lia|auto]. }
    unfold start, stop, clamp_down, norm_axis. destruct (s_lo s) as [i|]; destruct (s_hi s) as [j|].
    + replace (j + nd) with (nd + j) by lia. replace (i + nd) with (nd + i) by lia. set (u := if i <? 0 then _ else _). set (v := if j <? 0 then _ else _).
      destruct (Z.leb_spec 0 u); [replace (Z.max (-1) (Z.min (nd - 1) u)) with (Z.min (nd - 1) u) by lia|]; intuition lia.
    + replace (i + nd) with (nd + i) by lia. set (u := if i <? 0 then _ else _).
      destruct (Z.leb_spec 0 u); [replace (Z.max (-1) (Z.min (nd - 1) u)) with (Z.min (nd - 1) u) by lia|]; intuition lia.
    + replace (j + nd) with (nd + j) by lia. set (v := if j <? 0 then _ else _). intuition lia.
    + intuition lia.
Qed.
