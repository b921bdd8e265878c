(** Concrete runs of the trajectory planner: a straight line and a corner.  The hypotheses of C81, C83 and C85 are met; C81 to C84 are refuted where they fail. *)
From Coq Require Import Reals Lra Psatz.
From Verif Require Import Base MathModel TotpModel TotpVec TotpPath TotpLookup TotpRoute TotpSmooth TotpProps TotpTrajModel TotpLimitProps TotpTraj TotpTrajProps.
Open Scope R_scope.

Ltac rdec := repeat match goal with
  | |- context [Rltb ?a ?b] => first [ rewrite (proj2 (Rltb_true a b)) by lra | rewrite (proj2 (Rltb_false a b)) by lra ]
  | |- context [Rleb ?a ?b] => first [ rewrite (proj2 (Rleb_true a b)) by lra | rewrite (proj2 (Rleb_false a b)) by lra ]
  | |- context [Reqb ?a ?b] => first [ rewrite (proj2 (Reqb_true a b)) by lra | rewrite (proj2 (Reqb_false a b)) by lra ]
  end.
Lemma dbl_max_big : 1000 <= dbl_max.
Proof. unfold dbl_max. apply IZR_le. vm_compute. discriminate. Qed.

(** ** One round of each loop *)
Section Rounds.
Variables (n : nat) (tg cv : R -> vec) (len : R) (sw : list (R * bool)) (vmax amax : vec) (dt : R).
Lemma fr_end fuel tr disc pos vel acc pos1 vel1 : skip_disc disc pos = [] -> vel1 = vel + dt * acc -> pos1 = pos + dt * / 2 * (vel + vel1) -> len < pos1 ->
  forward_round n tg cv len vmax amax dt fuel tr disc pos vel acc = Ok (inl ((pos1, vel1) :: tr, true)).
Proof. intros S -> -> H. unfold forward_round. rewrite S. cbv zeta. rewrite (proj2 (Rltb_true _ _) H). reflexivity. Qed.
Lemma fr_step fuel tr disc pos vel acc pos1 vel1 : skip_disc disc pos = [] -> vel1 = vel + dt * acc -> pos1 = pos + dt * / 2 * (vel + vel1) ->
  pos1 <= len -> 0 <= vel1 -> over n tg cv vmax amax pos1 vel1 = false ->
  forward_round n tg cv len vmax amax dt fuel tr disc pos vel acc = Ok (inr ((pos1, vel1) :: tr, [], pos1, vel1, min_max_acc n tg cv amax pos1 vel1 true)).
Proof.
  intros S -> -> H1 H2 O. unfold forward_round. rewrite S. cbv zeta. rewrite (proj2 (Rltb_false _ _) H1), (proj2 (Rltb_false _ _) H2).
  assert (V : Rltb (vel_max n tg vmax (pos + dt * / 2 * (vel + (vel + dt * acc)))) (vel + dt * acc) = false).
  { unfold over in O. apply orb_false_iff in O. apply O. }
  rewrite V. cbn [andb]. rewrite O. reflexivity.
Qed.
Lemma fr_disc fuel tr disc pos vel acc d e disc' pos1 vel1 vel2 : skip_disc disc pos = (d, e) :: disc' -> vel1 = vel + dt * acc -> pos1 = pos + dt * / 2 * (vel + vel1) ->
  d < pos1 -> vel2 = vel + (d - pos) * (vel1 - vel) / (pos1 - pos) -> d <= len -> 0 <= vel2 -> over n tg cv vmax amax d vel2 = false ->
  forward_round n tg cv len vmax amax dt fuel tr disc pos vel acc = Ok (inr ((d, vel2) :: tr, (d, e) :: disc', d, vel2, min_max_acc n tg cv amax d vel2 true)).
Proof.
  intros S -> -> H0 -> H1 H2 O. unfold forward_round. rewrite S. cbv zeta. rewrite (proj2 (Rltb_true _ _) H0). rewrite (proj2 (Rltb_false _ _) H1), (proj2 (Rltb_false _ _) H2).
  match type of O with over _ _ _ _ _ _ ?v = _ => assert (V : Rltb (vel_max n tg vmax d) v = false) by (unfold over in O; apply orb_false_iff in O; apply O) end.
  rewrite V. cbn [andb]. rewrite O. reflexivity.
Qed.
(** The first step back meets the trajectory. *)
Lemma bl_hit fuel s1 before s2 pos vel acc pos1 vel1 x xv : fst s1 <= pos -> (before <> [] \/ 0 <= pos) ->
  vel1 = vel - dt * acc -> pos1 = pos - dt * / 2 * (vel1 + vel) -> 0 <= vel1 ->
  intersection s1 s2 pos1 vel1 (quot (vel - vel1) (pos - pos1)) = Some (x, xv) ->
  Rmax (fst s1) pos1 - tol <= x -> x <= tol + Rmin (fst s2) pos ->
  backward_loop n tg cv amax dt (S fuel) s1 before s2 [] pos vel acc (Some 0) = Ok ((pos, vel) :: (x, xv) :: s1 :: before).
Proof.
  intros H1 HB -> -> H2 HI H3 H4. cbn [backward_loop].
  assert (C : match before with [] => Rleb 0 pos | _ :: _ => true end = true) by (destruct before; [|reflexivity]; destruct HB as [HB|HB]; [contradiction|apply Rleb_true, HB]).
  rewrite C. rewrite (proj2 (Rleb_true _ _) H1). cbv zeta. rewrite (proj2 (Rltb_false _ _) H2). rewrite HI. cbn [fst].
  rewrite (proj2 (Rleb_true _ _) H3), (proj2 (Rleb_true _ _) H4). reflexivity.
Qed.
End Rounds.

(** ** A straight line in one dimension *)
Definition line (L : R) : path := Path [(0, Linear (corner 0 0) (corner L 0))] L [].
Definition line_ws (L : R) : list vec := [corner 0 0; corner L 0].
Lemma line_norm L : 0 <= L -> norm 1 (vsub (corner L 0) (corner 0 0)) = L.
Proof. intros H. apply norm_unique; [exact H|]. cbn [dot]. unfold vsub. cbn [corner]. ring. Qed.
Lemma line_make L dev : 0 < L -> path_make 1 (line_ws L) dev = Some (line L).
Proof.
  intros H. unfold line_ws. cbn [path_make path_segments place seg_switching map rev app pop_past tl seg_len]. rewrite line_norm by lra. unfold line. do 2 f_equal. ring.
Qed.
Lemma line_good L dev : 2 * tol < L -> good_waypoints 1 (line_ws L) dev.
Proof.
  intros H. unfold line_ws. split; [cbn; lia|]. split.
  - intros l1 a b l2 E. destruct l1 as [|? [|? ?]]; cbn [app] in E; [|discriminate|destruct l; discriminate].
    injection E as <- <- _. rewrite line_norm; [exact H|]. unfold tol in H; lra.
  - intros _ l1 a b c l2 E. destruct l1 as [|? [|? [|? ?]]]; discriminate.
Qed.
Lemma line_tg L s : 0 < L -> tangent_of 1 (line L) s 0%nat = 1.
Proof.
  intros H. unfold tangent_of, path_tangent, path_segment, line. cbn [p_segs find_segment obind seg_tangent]. rewrite line_norm by lra. rdec. cbn [corner]. field. lra.
Qed.
Lemma line_cv L s : curvature_of 1 (line L) s 0%nat = 0.
Proof. reflexivity. Qed.
Section Line.
Variable L : R.
Hypothesis HL : 0 < L.
Notation tg := (tangent_of 1 (line L)). Notation cv := (curvature_of 1 (line L)).
Lemma line_acc s v mx : min_max_acc 1 tg cv (fun _ => 1) s v mx = if mx then 1 else -1.
Proof.
  unfold min_max_acc. cbn [seq fold_left]. rewrite line_tg, line_cv by exact HL. rdec. rewrite Rabs_R1. pose proof dbl_max_big.
  destruct mx.
  - replace (1 / 1 - 1 * 0 * v * v / 1) with 1 by field. rewrite Rmin_right by lra. ring.
  - replace (1 / 1 - -1 * 0 * v * v / 1) with 1 by field. rewrite Rmin_right by lra. ring.
Qed.
Lemma line_over s v : v <= 10 -> over 1 tg cv (fun _ => 10) (fun _ => 1) s v = false.
Proof.
  intros Hv. unfold over, acc_max_vel, vel_max. cbn [seq fold_left Nat.sub]. rewrite line_tg by exact HL. rdec. cbn [above orb]. rewrite Rabs_R1. pose proof dbl_max_big.
  rewrite Rmin_right by lra. apply Rltb_false. lra.
Qed.
End Line.

(** Length 1, limits 1 and 10, time step 2: three steps. *)
Lemma line_plan1 : path_plan 1 (line 1) (fun _ => 10) (fun _ => 1) 2 10 = Ok [(0, 0); (1 / 2, 1 / 2); (1, 0)].
Proof.
  unfold path_plan, plan. rewrite !line_acc by lra.
  assert (F : forward 1 (tangent_of 1 (line 1)) (curvature_of 1 (line 1)) (p_len (line 1)) (p_switch (line 1)) (fun _ => 10) (fun _ => 1) 2 10 [(0, 0)] 1 = Ok ([(2, 2); (0, 0)], true)).
  { unfold forward. cbn [forward_loop p_len p_switch line]. rewrite (fr_end _ _ _ _ _ _ _ _ _ _ _ _ _ 2 2); [reflexivity|reflexivity|lra|lra|cbn [p_len line]; lra]. }
  assert (B : backward 1 (tangent_of 1 (line 1)) (curvature_of 1 (line 1)) (fun _ => 1) 2 10 [(2, 2); (0, 0)] (p_len (line 1)) 0 (-1) = Ok [(1, 0); (1 / 2, 1 / 2); (0, 0)]).
  { unfold backward. cbn [fst snd p_len line]. rdec. apply (bl_hit _ _ _ _ _ _ _ _ _ _ _ _ (-1) 2); cbn [fst snd]; try lra.
    - unfold quot. rdec. unfold intersection, quot. cbn [fst snd]. rdec.
      replace (Reqb ((0 - 2) / (1 - -1) - (2 - 0) / (2 - 0)) 0) with false by (symmetry; apply Reqb_false; intros X; assert ((0 - 2) / (1 - -1) - (2 - 0) / (2 - 0) = -2) by field; lra).
      do 2 f_equal; field.
    - rewrite Rmax_left by lra. unfold tol. lra.
    - rewrite Rmin_right by lra. unfold tol. lra. }
  cbn [plan_loop]. rewrite F. cbn [obind]. rewrite B. reflexivity.
Qed.
Definition line_ts : list tstep := [TStep 0 0 0; TStep (1 / 2) (1 / 2) 2; TStep 1 0 4].
Lemma line_timing : timing [(0, 0); (1 / 2, 1 / 2); (1, 0)] = Some line_ts.
Proof.
  unfold timing, line_ts. cbn [timing_from ts_pos ts_vel ts_time]. unfold quot. rdec.
  assert (E1 : 0 + (1 / 2 - 0) / ((1 / 2 + 0) / 2) = 2) by field. rewrite E1.
  assert (E2 : 2 + (1 - 1 / 2) / ((0 + 1 / 2) / 2) = 4) by field. rewrite E2. reflexivity.
Qed.
Lemma line_ordered : ordered line_ts.
Proof.
  split.
  - intros l1 a b l2 E. unfold line_ts in E. destruct l1 as [|? [|? [|? l]]]; cbn [app] in E.
    + injection E as <- <- _. cbn. lra.
    + injection E as _ <- <- _. cbn. lra.
    + discriminate.
    + destruct l; discriminate.
  - intros l1 a b E. unfold line_ts in E. destruct l1 as [|? [|? [|? l]]]; cbn [app] in E.
    + discriminate.
    + injection E as _ <- <-. cbn. lra.
    + discriminate.
    + destruct l; discriminate.
Qed.
Lemma line_agreed : forall x y, In x line_ts -> In y line_ts -> ts_time y = ts_time x -> ts_vel y = ts_vel x.
Proof. intros x y [<-|[<-|[<-|[]]]] [<-|[<-|[<-|[]]]]; cbn; intros; lra. Qed.
(** The hypotheses of C81, C83 and C85 are met. *)
Example line_meets : good_waypoints 1 (line_ws 1) 0 /\ path_make 1 (line_ws 1) 0 = Some (line 1) /\
  path_plan 1 (line 1) (fun _ => 10) (fun _ => 1) 2 10 = Ok [(0, 0); (1 / 2, 1 / 2); (1, 0)] /\
  timing [(0, 0); (1 / 2, 1 / 2); (1, 0)] = Some line_ts /\ ordered line_ts /\ duration line_ts <= dbl_max.
Proof.
  split; [apply line_good; unfold tol; lra|]. split; [apply line_make; lra|]. split; [exact line_plan1|]. split; [exact line_timing|].
  split; [exact line_ordered|]. unfold duration, line_ts. cbn [last ts_time]. pose proof dbl_max_big. lra.
Qed.
(** Its path state at some times: half way up the first ramp it is at 1/8 with speed 1/4. *)
Lemma line_state t : 2 <= t -> exists c, pos_vel line_ts fresh t = Ok (Some (1 / 2 + (t - 2) / 2 - (t - 2) * (t - 2) / 8, 1 / 2 - (t - 2) / 4), c).
Proof.
  intros Ht. pose proof dbl_max_big as DM.
  assert (SA : segment_at line_ts t 2).
  { destruct (Rle_dec 4 t) as [H|H].
    - left. unfold duration, line_ts. cbn. auto.
    - apply (seg_between line_ts 1 (TStep (1 / 2) (1 / 2) 2) (TStep 1 0 4)); [exact line_ordered|reflexivity|reflexivity|cbn [ts_time]; lra]. }
  destruct (pos_vel_at line_ts fresh 1 (TStep (1 / 2) (1 / 2) 2) (TStep 1 0 4) t line_ordered) as (c & PV & _); [unfold duration, line_ts; cbn [last ts_time]; lra|left; reflexivity|reflexivity|reflexivity|exact SA|].
  exists c. rewrite PV. unfold pos_at, vel_at, acc_of. cbn [ts_pos ts_vel ts_time].
  match goal with |- Ok (Some (?a, ?b), _) = Ok (Some (?a', ?b'), _) => assert (E1 : a = a') by field; assert (E2 : b = b') by field; rewrite E1, E2; reflexivity end.
Qed.

(** ** C82: after the duration the robot should stay at the goal *)
Theorem C82_after_end_refuted : exists n ws dev p vmax amax dt fuel steps ts t,
  good_waypoints n ws dev /\ path_make n ws dev = Some p /\ path_plan n p vmax amax dt fuel = Ok steps /\ timing steps = Some ts /\ ordered ts /\
  duration ts < t /\ exists q v c, position_velocity n p ts fresh t = Ok (Some (q, v), c) /\ q 0%nat = 1 / 2 /\ v 0%nat = - (1 / 2) /\ last ws vzero 0%nat = 1.
Proof.
  exists 1%nat, (line_ws 1), 0, (line 1), (fun _ => 10), (fun _ => 1), 2, 10%nat, [(0, 0); (1 / 2, 1 / 2); (1, 0)], line_ts, 6.
  destruct line_meets as (M1 & M2 & M3 & M4 & M5 & M6). repeat (split; [assumption|]). split; [unfold duration, line_ts; cbn; lra|].
  destruct (line_state 6 ltac:(lra)) as (c & PV).
  unfold position_velocity. rewrite PV. cbn [obind]. unfold path_config, path_tangent, path_segment. cbn [line p_segs find_segment obind seg_config seg_tangent].
  rewrite line_norm by lra. rdec. eexists _, _, c. split; [reflexivity|]. cbn beta. split; [|split; [|reflexivity]].
  - cbn [corner]. rewrite unit_interval_in by lra. lra.
  - cbn [corner]. lra.
Qed.
Print Assumptions C82_after_end_refuted.

(** ** C83, continued: a time before the start, and a time that is not a number *)
Theorem C83_negative_time_refuted n p vmax amax dt fuel steps ts t : path_plan n p vmax amax dt fuel = Ok steps -> timing steps = Some ts ->
  0 < duration ts <= dbl_max -> t < 0 -> position_velocity n p ts fresh t = UB.
Proof.
  intros P T D Ht. pose proof (plan_planned _ _ _ _ _ _ _ _ P T) as PL. destruct (pl_first _ _ PL) as (x & Hx & _ & _ & Tx).
  unfold position_velocity, pos_vel, get_segment. rewrite (proj2 (Rleb_false _ _)) by lra. cbn [c_time fresh]. rewrite (proj2 (Rltb_true t dbl_max)) by lra.
  destruct ts as [|y ts]; [discriminate|]. injection Hx as ->. cbn [skipn advance]. rewrite (proj2 (Rleb_false _ _)) by lra. reflexivity.
Qed.
Theorem C83_nan_poisons_refuted : exists ts t1 t0 k c1 c2 c3, ordered ts /\
  get_segment ts fresh (Some t1) = Ok (k, c1) /\ get_segment ts c1 None = Ok (k, c2) /\
  get_segment ts c2 (Some t0) = Ok (2%nat, c3) /\ exists c4, get_segment ts fresh (Some t0) = Ok (1%nat, c4).
Proof.
  exists line_ts, 3, 1. do 4 eexists. split; [exact line_ordered|]. pose proof dbl_max_big as DM.
  unfold get_segment, duration, line_ts. cbn [last ts_time c_time c_seg fresh]. rdec. cbn [skipn advance ts_time]. rdec. cbn [obind].
  split; [reflexivity|]. cbn [c_time c_seg nth_error]. split; [reflexivity|]. cbn [c_time c_seg skipn advance ts_time]. rdec. cbn [obind]. split; [reflexivity|]. eexists. reflexivity.
Qed.
Theorem C83_nan_first_refuted ts : get_segment ts fresh None = UB.
Proof. reflexivity. Qed.
Print Assumptions C83_negative_time_refuted.
Print Assumptions C83_nan_poisons_refuted.

(** ** C81, continued: the steps may go back a little, in place and in time *)
Theorem C81_backstep_refuted : exists n ws dev p vmax amax dt fuel steps ts l1 a b l2,
  good_waypoints n ws dev /\ path_make n ws dev = Some p /\ path_plan n p vmax amax dt fuel = Ok steps /\ timing steps = Some ts /\
  ts = l1 ++ a :: b :: l2 /\ ts_pos b < ts_pos a /\ ts_time b < ts_time a.
Proof.
  set (L := 1 - tol). assert (HL : 0 < L) by (unfold L, tol; lra).
  set (x := / 2 - 3 / 4 * tol). set (xv := 1 - / 2 * tol).
  assert (PP : path_plan 1 (line L) (fun _ => 10) (fun _ => 1) 1 10 = Ok [(0, 0); (1 / 2, 1); (x, xv); (L, 0)]).
  { unfold path_plan, plan. rewrite !line_acc by exact HL.
    assert (F : forward 1 (tangent_of 1 (line L)) (curvature_of 1 (line L)) (p_len (line L)) (p_switch (line L)) (fun _ => 10) (fun _ => 1) 1 10 [(0, 0)] 1 = Ok ([(2, 2); (1 / 2, 1); (0, 0)], true)).
    { unfold forward. cbn [forward_loop p_switch line].
      rewrite (fr_step _ _ _ _ _ _ _ _ _ _ _ _ _ (1 / 2) 1); [|reflexivity|lra|lra|cbn [p_len line]; unfold L, tol; lra|lra|apply line_over; [exact HL|lra]]. cbn [obind].
      rewrite line_acc by exact HL. rewrite (fr_end _ _ _ _ _ _ _ _ _ _ _ _ _ 2 2); [reflexivity|reflexivity|lra|lra|cbn [p_len line]; unfold L, tol; lra]. }
    assert (B : backward 1 (tangent_of 1 (line L)) (curvature_of 1 (line L)) (fun _ => 1) 1 10 [(2, 2); (1 / 2, 1); (0, 0)] (p_len (line L)) 0 (-1) = Ok [(L, 0); (x, xv); (1 / 2, 1); (0, 0)]).
    { unfold backward. cbn [fst snd p_len line]. rewrite (proj2 (Rltb_false _ _)) by (unfold L, tol; lra). apply (bl_hit _ _ _ _ _ _ _ _ _ _ _ _ (L - / 2) 1); cbn [fst snd]; try (unfold L, x, xv, tol; lra).
      - unfold quot. rewrite (proj2 (Reqb_false (L - (L - / 2)) 0)) by lra. unfold intersection, quot. cbn [fst snd]. rewrite (proj2 (Reqb_false (2 - 1 / 2) 0)) by lra.
        assert (E1 : (0 - 1) / (L - (L - / 2)) = -2) by (replace (L - (L - / 2)) with (/ 2) by ring; field). assert (E2 : (2 - 1) / (2 - 1 / 2) = 2 / 3) by field. rewrite E1, E2.
        rdec. assert (E3 : (1 - 1 + -2 * (L - / 2) - 2 / 3 * (1 / 2)) / (-2 - 2 / 3) = x) by (unfold x, L; field). rewrite E3. repeat f_equal. unfold xv, x. field.
      - rewrite Rmax_left by (unfold L, tol; lra). unfold x, tol. lra.
      - rewrite Rmin_right by (unfold L, tol; lra). unfold x, L, tol. lra. }
    cbn [plan_loop]. rewrite F. cbn [obind]. rewrite B. reflexivity. }
  assert (TT : exists t2 t3, timing [(0, 0); (1 / 2, 1); (x, xv); (L, 0)] = Some [TStep 0 0 0; TStep (1 / 2) 1 1; TStep x xv t2; TStep L 0 t3] /\ t2 < 1).
  { unfold timing. cbn [timing_from ts_pos ts_vel ts_time]. unfold quot.
    rewrite (proj2 (Reqb_false ((1 + 0) / 2) 0)) by lra. assert (E1 : 0 + (1 / 2 - 0) / ((1 + 0) / 2) = 1) by field. rewrite E1.
    rewrite (proj2 (Reqb_false ((xv + 1) / 2) 0)) by (unfold xv, tol; lra). rewrite (proj2 (Reqb_false ((0 + xv) / 2) 0)) by (unfold xv, tol; lra).
    do 2 eexists. split; [reflexivity|]. assert (Dx : (x - 1 / 2) / ((xv + 1) / 2) < 0); [|lra].
    assert (0 < / ((xv + 1) / 2)) by (apply Rinv_0_lt_compat; unfold xv, tol; lra). assert (x - 1 / 2 < 0) by (unfold x, tol; lra). unfold Rdiv at 1. nra. }
  destruct TT as (t2 & t3 & TT & T2).
  exists 1%nat, (line_ws L), 0, (line L), (fun _ => 10), (fun _ => 1), 1, 10%nat. do 2 eexists. exists [TStep 0 0 0], (TStep (1 / 2) 1 1), (TStep x xv t2), [TStep L 0 t3].
  split; [apply line_good; unfold L, tol; lra|]. split; [apply line_make, HL|]. split; [exact PP|]. split; [exact TT|]. split; [reflexivity|].
  cbn [ts_pos ts_time]. split; [unfold x, tol; lra|exact T2].
Qed.
Print Assumptions C81_backstep_refuted.

(** With a time step of zero the constructor does not return. *)
Theorem C81_zero_step_refuted n p vmax amax fuel : 0 < p_len p -> (forall i, (i < n)%nat -> 0 <= vmax i) -> (forall i, (i < n)%nat -> 0 <= amax i) ->
  (forall s d, In (s, d) (p_switch p) -> 0 <= s) -> path_plan n p vmax amax 0 fuel = NoFuel.
Proof.
  intros L V A S. unfold path_plan, plan. pose proof dbl_max_big as DM.
  set (tg := tangent_of n p). set (cv := curvature_of n p).
  assert (O : over n tg cv vmax amax 0 0 = false).
  { unfold over. apply orb_false_iff. split.
    - apply C80_acceleration_limit; [exact A|lra|]. exists 0. intros i Hi. rewrite !Rmult_0_r, Rplus_0_r, Rabs_R0. apply A, Hi.
    - apply Rltb_false. apply C80_path_velocity; [exact V|lra|]. intros i Hi. rewrite Rmult_0_r, Rabs_R0. apply V, Hi. }
  assert (SK : forall disc, (forall s d, In (s, d) disc -> 0 <= s) -> skip_disc disc 0 = [] \/ exists s d l, skip_disc disc 0 = (s, d) :: l /\ 0 < s /\ forall s d, In (s, d) l -> 0 <= s).
  { induction disc as [|[s d] l IH]; intros H; cbn [skip_disc]; [left; reflexivity|].
    destruct (Rleb s 0) eqn:E; cbn [orb]; [apply IH; intros; eapply H; right; eassumption|]. destruct d; cbn [negb]; [|apply IH; intros; eapply H; right; eassumption].
    apply Rleb_false in E. right. exists s, true, l. split; [reflexivity|]. split; [exact E|]. intros; eapply H; right; eassumption. }
  assert (FR : forall rounds fuel tr disc acc, (forall s d, In (s, d) disc -> 0 <= s) -> tr <> [] -> forward_loop n tg cv (p_len p) vmax amax 0 fuel rounds tr disc 0 0 acc = NoFuel).
  { induction rounds as [|k IH]; intros fu tr disc acc HD NT; [reflexivity|]. cbn [forward_loop].
    destruct (SK disc HD) as [E|(s & d & l & E & Hs & Hl)].
    - rewrite (fr_step n tg cv (p_len p) vmax amax 0 fu tr disc 0 0 acc 0 0 E); [|ring|ring|lra|lra|exact O]. cbn [obind]. apply IH; [intros ? ? []|discriminate].
    - assert (FQ : forward_round n tg cv (p_len p) vmax amax 0 fu tr disc 0 0 acc = Ok (inr ((0, 0) :: tr, (s, d) :: l, 0, 0, min_max_acc n tg cv amax 0 0 true))).
      { unfold forward_round. rewrite E. cbv zeta. replace (0 + 0 * acc) with 0 by ring. replace (0 + 0 * / 2 * (0 + 0)) with 0 by ring.
        rewrite (proj2 (Rltb_false s 0)) by lra. rewrite (proj2 (Rltb_false (p_len p) 0)) by lra. rewrite (proj2 (Rltb_false 0 0)) by lra.
        assert (VV : Rltb (vel_max n tg vmax 0) 0 = false) by (unfold over in O; apply orb_false_iff in O; apply O). rewrite VV. cbn [andb]. rewrite O. reflexivity. }
      rewrite FQ. cbn [obind]. apply IH; [|discriminate]. intros x e [X|X]; [injection X as <- <-; lra|eapply Hl, X]. }
  destruct fuel as [|k]; [reflexivity|]. cbn [plan_loop]. unfold forward. rewrite FR; [reflexivity|exact S|discriminate].
Qed.
Print Assumptions C81_zero_step_refuted.

(** ** C84: a corner without blending is taken at speed *)
Definition turn : path := Path [(0, Linear (corner 0 0) (corner 1 0)); (1, Linear (corner 1 0) (corner 1 1))] 2 [(1, true)].
Lemma turn_n1 : norm 2 (vsub (corner 1 0) (corner 0 0)) = 1.
Proof. apply norm_unique; [lra|]. cbn [dot]. unfold vsub. cbn [corner]. ring. Qed.
Lemma turn_n2 : norm 2 (vsub (corner 1 1) (corner 1 0)) = 1.
Proof. apply norm_unique; [lra|]. cbn [dot]. unfold vsub. cbn [corner]. ring. Qed.
Lemma turn_make : path_make 2 square 0 = Some turn.
Proof.
  unfold square. cbn [path_make path_segments]. rewrite (proj2 (Rltb_false 0 0)) by lra. cbn [place seg_switching map rev app pop_past tl seg_len].
  rewrite turn_n1, turn_n2. rewrite (proj2 (Rleb_false (0 + 1 + 1) (0 + 1))) by lra. cbn [rev app tl]. unfold turn.
  replace (0 + 1) with 1 by ring. replace (1 + 1) with 2 by ring. reflexivity.
Qed.
Lemma turn_segment s : path_segment turn s = Ok (if Rleb 1 s then Linear (corner 1 0) (corner 1 1) else Linear (corner 0 0) (corner 1 0), if Rleb 1 s then s - 1 else s - 0).
Proof. unfold path_segment, turn. cbn [p_segs find_segment fst]. destruct (Rleb 1 s); reflexivity. Qed.
Lemma turn_tg s : tangent_of 2 turn s 0%nat = (if Rleb 1 s then 0 else 1) /\ tangent_of 2 turn s 1%nat = (if Rleb 1 s then 1 else 0).
Proof.
  unfold tangent_of, path_tangent. rewrite turn_segment. cbn [obind]. destruct (Rleb 1 s); cbn [seg_tangent]; rewrite ?turn_n1, ?turn_n2; rdec; unfold vsub; cbn [corner]; split; field.
Qed.
Lemma turn_cv s i : curvature_of 2 turn s i = 0.
Proof. unfold curvature_of, path_curvature. rewrite turn_segment. cbn [obind]. destruct (Rleb 1 s); reflexivity. Qed.
Lemma turn_acc s v mx : min_max_acc 2 (tangent_of 2 turn) (curvature_of 2 turn) (fun _ => 1) s v mx = if mx then 1 else -1.
Proof.
  unfold min_max_acc. cbn [seq fold_left]. destruct (turn_tg s) as [-> ->]. rewrite !turn_cv. pose proof dbl_max_big.
  destruct (Rleb 1 s); rdec; rewrite Rabs_R1; destruct mx;
  match goal with |- context [Rmin _ ?x] => replace x with 1 by field; rewrite Rmin_right by lra; ring end.
Qed.
Lemma turn_over s v : v <= 10 -> over 2 (tangent_of 2 turn) (curvature_of 2 turn) (fun _ => 10) (fun _ => 1) s v = false.
Proof.
  intros Hv. unfold over, acc_max_vel, vel_max. cbn [seq fold_left Nat.sub]. destruct (turn_tg s) as [-> ->]. rewrite !turn_cv. pose proof dbl_max_big.
  destruct (Rleb 1 s); rdec; cbn [above orb]; rewrite Rabs_R1; rewrite Rmin_right by lra; apply Rltb_false; lra.
Qed.
Lemma turn_plan : path_plan 2 turn (fun _ => 10) (fun _ => 1) 2 10 = Ok [(0, 0); (1, 1); (1, 1); (2, 0)].
Proof.
  unfold path_plan, plan. rewrite !turn_acc.
  assert (F : forward 2 (tangent_of 2 turn) (curvature_of 2 turn) (p_len turn) (p_switch turn) (fun _ => 10) (fun _ => 1) 2 10 [(0, 0)] 1 = Ok ([(5, 3); (1, 1); (0, 0)], true)).
  { unfold forward. cbn [forward_loop p_switch turn].
    rewrite (fr_disc _ _ _ _ _ _ _ _ _ _ _ _ _ 1 true [] 2 2 1); [|cbn [skip_disc]; rdec; reflexivity|lra|lra|lra|field|cbn [p_len turn]; lra|lra|apply turn_over; lra].
    cbn [obind]. rewrite turn_acc. rewrite (fr_end _ _ _ _ _ _ _ _ _ _ _ _ _ 5 3); [reflexivity|cbn [skip_disc]; rdec; reflexivity|lra|lra|cbn [p_len turn]; lra]. }
  assert (B : backward 2 (tangent_of 2 turn) (curvature_of 2 turn) (fun _ => 1) 2 10 [(5, 3); (1, 1); (0, 0)] (p_len turn) 0 (-1) = Ok [(2, 0); (1, 1); (1, 1); (0, 0)]).
  { unfold backward. cbn [fst snd p_len turn]. rdec. apply (bl_hit _ _ _ _ _ _ _ _ _ _ _ _ 0 2); cbn [fst snd]; try lra.
    - unfold quot. rdec. unfold intersection, quot. cbn [fst snd]. rdec.
      assert (E1 : (0 - 2) / (2 - 0) = -1) by field. assert (E2 : (3 - 1) / (5 - 1) = / 2) by field. rewrite E1, E2. rdec.
      match goal with |- Some (?a, _) = _ => assert (E3 : a = 1) by field; rewrite E3 end.
      match goal with |- Some (_, ?a) = _ => assert (E4 : a = 1) by field; rewrite E4 end. reflexivity.
    - rewrite Rmax_left by lra. unfold tol. lra.
    - rewrite Rmin_right by lra. unfold tol. lra. }
  cbn [plan_loop]. rewrite F. cbn [obind]. rewrite B. reflexivity.
Qed.
Definition turn_ts : list tstep := [TStep 0 0 0; TStep 1 1 2; TStep 1 1 2; TStep 2 0 4].
Lemma turn_timing : timing [(0, 0); (1, 1); (1, 1); (2, 0)] = Some turn_ts.
Proof.
  unfold timing, turn_ts. cbn [timing_from ts_pos ts_vel ts_time]. unfold quot. rdec.
  assert (E1 : 0 + (1 - 0) / ((1 + 0) / 2) = 2) by field. rewrite E1.
  assert (E2 : 2 + (1 - 1) / ((1 + 1) / 2) = 2) by field. rewrite E2.
  assert (E3 : 2 + (2 - 1) / ((0 + 1) / 2) = 4) by field. rewrite E3. reflexivity.
Qed.
Lemma turn_before t : 0 <= t < 2 -> exists q v c, position_velocity 2 turn turn_ts fresh t = Ok (Some (q, v), c) /\ v 0%nat = t / 2 /\ v 1%nat = 0.
Proof.
  intros Ht. pose proof dbl_max_big as DM. unfold position_velocity, pos_vel, get_segment, duration, turn_ts. cbn [last ts_time c_time c_seg fresh].
  rdec. cbn [skipn advance ts_time]. rdec. cbn [obind]. unfold path_state. cbn [nth_error ts_pos ts_vel ts_time]. unfold quot. rdec. cbn [obind].
  match goal with |- context [path_config 2 turn ?x] => assert (E : x = t * t / 4) by field; rewrite E end.
  assert (t * t / 4 < 1) by nra.
  unfold path_config, path_tangent. rewrite turn_segment. cbn [obind]. rdec. cbn [seg_config seg_tangent]. rewrite turn_n1. rdec.
  do 3 eexists. split; [reflexivity|]. cbn beta. unfold vsub. cbn [corner]. split; field.
Qed.
Lemma turn_after t : 2 <= t < 4 -> exists q v c, position_velocity 2 turn turn_ts fresh t = Ok (Some (q, v), c) /\ v 0%nat = 0 /\ v 1%nat = 2 - t / 2.
Proof.
  intros Ht. pose proof dbl_max_big as DM. unfold position_velocity, pos_vel, get_segment, duration, turn_ts. cbn [last ts_time c_time c_seg fresh].
  rdec. cbn [skipn advance ts_time]. rdec. cbn [obind]. unfold path_state. cbn [nth_error ts_pos ts_vel ts_time]. unfold quot. rdec. cbn [obind].
  match goal with |- context [path_config 2 turn ?x] => assert (E : x = 1 + (t - 2) - (t - 2) * (t - 2) / 4) by field; rewrite E end.
  assert (1 <= 1 + (t - 2) - (t - 2) * (t - 2) / 4) by nra.
  unfold path_config, path_tangent. rewrite turn_segment. cbn [obind]. rdec. cbn [seg_config seg_tangent]. rewrite turn_n2. rdec.
  do 3 eexists. split; [reflexivity|]. cbn beta. unfold vsub. cbn [corner]. split; field.
Qed.
Theorem C84_velocity_jump_refuted : exists n ws dev p vmax amax dt fuel steps ts,
  good_waypoints n ws dev /\ path_make n ws dev = Some p /\ path_plan n p vmax amax dt fuel = Ok steps /\ timing steps = Some ts /\
  (forall i, amax i = 1) /\
  forall d, 0 < d -> exists t1 t2 q1 v1 c1 q2 v2 c2, 0 <= t1 < t2 /\ t2 < t1 + d /\
    position_velocity n p ts fresh t1 = Ok (Some (q1, v1), c1) /\ position_velocity n p ts fresh t2 = Ok (Some (q2, v2), c2) /\
    v2 0%nat <= v1 0%nat - / 2.
Proof.
  exists 2%nat, square, 0, turn, (fun _ => 10), (fun _ => 1), 2, 10%nat, [(0, 0); (1, 1); (1, 1); (2, 0)], turn_ts.
  split; [apply square_good|]. split; [exact turn_make|]. split; [exact turn_plan|]. split; [exact turn_timing|]. split; [reflexivity|].
  intros d Hd. set (h := Rmin (d / 2) 1). assert (H : 0 < h /\ h <= d / 2 /\ h <= 1) by (unfold h; split; [apply Rmin_glb_lt; lra|split; [apply Rmin_l|apply Rmin_r]]).
  destruct (turn_before (2 - h) ltac:(lra)) as (q1 & v1 & c1 & P1 & V1 & _). destruct (turn_after 2 ltac:(lra)) as (q2 & v2 & c2 & P2 & V2 & _).
  exists (2 - h), 2, q1, v1, c1, q2, v2, c2. split; [lra|]. split; [lra|]. split; [exact P1|]. split; [exact P2|]. lra.
Qed.
Print Assumptions C84_velocity_jump_refuted.
