(** C84 with blended corners, and C82: what happens after the end (time_optimal_trajectory_parametrization.cpp 617-649). *)
From Coq Require Import Reals Lra Psatz.
From Verif Require Import Base MathModel TotpModel TotpVec TotpPath TotpLookup TotpRoute TotpSmooth TotpProps TotpTrajModel TotpLimitProps TotpTraj TotpTrajProps TotpWitnessProps.
Open Scope R_scope.

(** The steps are on the path and do not go back, and steps at the same time have the same speed. *)
Definition steady (p : path) (ts : list tstep) : Prop :=
  (forall x, In x ts -> 0 <= ts_pos x <= p_len p /\ 0 <= ts_vel x) /\ (forall x, In x ts -> agreed ts x).

Lemma left_interval t : forall l, (exists x, hd_error l = Some x /\ ts_time x < t) -> (exists y, In y l /\ t <= ts_time y) ->
  exists k a b, nth_error l k = Some a /\ nth_error l (S k) = Some b /\ ts_time a < t <= ts_time b.
Proof.
  induction l as [|x l IH]; intros (z & Hz & Tz) (y & Hy & Ty); [discriminate|]. injection Hz as <-.
  destruct Hy as [->|Hy]; [lra|]. destruct l as [|z l]; [destruct Hy|].
  destruct (Rlt_dec (ts_time z) t) as [L|L].
  - destruct IH as (k & a & b & Ha & Hb & T); [exists z; auto|exists y; auto|]. exists (S k), a, b. auto.
  - exists 0%nat, x, z. split; [reflexivity|]. split; [reflexivity|]. lra.
Qed.
(** Distances and speeds on one interval. *)
Lemma on_interval a b t u : ts_time a < ts_time b -> interval_ok a b -> 0 <= ts_vel a -> 0 <= ts_vel b ->
  ts_time a <= t <= ts_time b -> ts_time a <= u <= ts_time b ->
  0 <= vel_at a b t /\ ts_pos a <= pos_at a b t <= ts_pos b /\
  Rabs (vel_at a b u - vel_at a b t) <= Rabs (acc_of a b) * Rabs (u - t) /\
  Rabs (pos_at a b u - pos_at a b t) <= (ts_vel a + ts_vel b) * Rabs (u - t).
Proof.
  intros L I Va Vb Ht Hu. destruct (pos_at_end a b L I) as [_ EV].
  assert (VR : forall x, ts_time a <= x <= ts_time b -> 0 <= vel_at a b x <= ts_vel a + ts_vel b).
  { intros x Hx. unfold vel_at in EV |- *. set (ac := acc_of a b) in *. set (d := ts_time b - ts_time a) in *. set (y := x - ts_time a).
    assert (0 <= y <= d) by (unfold y, d; lra). assert (D : 0 < d) by (unfold d; lra).
    assert (E : ts_vel a + y * ac = ((d - y) * ts_vel a + y * ts_vel b) / d) by (rewrite <- EV; field; lra).
    rewrite E. split.
    - apply div_nonneg; [|exact D]. assert (0 <= (d - y) * ts_vel a) by (apply Rmult_le_pos; lra). assert (0 <= y * ts_vel b) by (apply Rmult_le_pos; lra). lra.
    - apply (Rmult_le_reg_r d); [exact D|]. unfold Rdiv. rewrite Rmult_assoc, Rinv_l, Rmult_1_r by lra.
      assert (0 <= (d - y) * ts_vel b) by (apply Rmult_le_pos; lra). assert (0 <= y * ts_vel a) by (apply Rmult_le_pos; lra). nra. }
  assert (PD : forall x y, pos_at a b x - pos_at a b y = (x - y) * ((vel_at a b x + vel_at a b y) / 2)) by (intros; unfold pos_at, vel_at; field).
  destruct (pos_at_start a b) as [SP SV]. destruct (pos_at_end a b L I) as [EP _].
  pose proof (VR t Ht) as Wt. pose proof (VR u Hu) as Wu. split; [apply Wt|]. split.
  - pose proof (PD t (ts_time a)) as P1. pose proof (PD (ts_time b) t) as P2. rewrite SP, SV in P1. rewrite EP, EV in P2.
    assert (0 <= (t - ts_time a) * ((vel_at a b t + ts_vel a) / 2)) by (apply Rmult_le_pos; lra).
    assert (0 <= (ts_time b - t) * ((ts_vel b + vel_at a b t) / 2)) by (apply Rmult_le_pos; lra). lra.
  - split.
    + replace (vel_at a b u - vel_at a b t) with (acc_of a b * (u - t)) by (unfold vel_at; ring). rewrite Rabs_mult. lra.
    + rewrite PD, Rabs_mult, (Rabs_pos_eq ((vel_at a b u + vel_at a b t) / 2)) by lra. rewrite (Rmult_comm (Rabs _)).
      apply Rmult_le_compat_r; [apply Rabs_pos|lra].
Qed.

Section Steady.
Variables (p : path) (ts : list tstep).
Hypotheses (PL : planned p ts) (I : ordered ts) (D : duration ts <= dbl_max) (ST : steady p ts).
(** Path position and speed at a time. *)
Definition state (t : R) : R * R := match pos_vel ts fresh t with Ok (Some sv, _) => sv | _ => (0, 0) end.
Lemma state_on k a b u : nth_error ts k = Some a -> nth_error ts (S k) = Some b -> ts_time a < ts_time b -> ts_time a <= u <= ts_time b ->
  state u = (pos_at a b u, vel_at a b u).
Proof.
  intros Ha Hb L Hu. unfold state. destruct (Rlt_dec u (ts_time b)) as [B|B].
  - destruct (pos_vel_at ts fresh k a b u I D (or_introl eq_refl) Ha Hb) as (c & PV & _); [apply (seg_between ts k a b); auto; lra|]. now rewrite PV.
  - assert (u = ts_time b) by lra. subst u.
    assert (Hin : In b ts) by (eapply nth_error_In, Hb).
    destruct (state_at_step p ts b PL I D Hin (proj2 ST b Hin)) as (c & PV). rewrite PV.
    destruct (nth_split_two ts k a b Ha Hb) as (l1 & l2 & Es). destruct (pos_at_end a b L (pl_ok _ _ PL l1 a b l2 Es)) as [-> ->]. reflexivity.
Qed.
Lemma interval_facts k a b t u : nth_error ts k = Some a -> nth_error ts (S k) = Some b -> ts_time a < ts_time b ->
  ts_time a <= t <= ts_time b -> ts_time a <= u <= ts_time b ->
  0 <= snd (state t) /\ 0 <= fst (state t) <= p_len p /\
  Rabs (snd (state u) - snd (state t)) <= Rabs (acc_of a b) * Rabs (u - t) /\
  Rabs (fst (state u) - fst (state t)) <= (ts_vel a + ts_vel b) * Rabs (u - t).
Proof.
  intros Ha Hb L Ht Hu. rewrite (state_on k a b t Ha Hb L Ht), (state_on k a b u Ha Hb L Hu). cbn [fst snd].
  destruct (proj1 ST a ltac:(eapply nth_error_In, Ha)) as [Pa Va]. destruct (proj1 ST b ltac:(eapply nth_error_In, Hb)) as [Pb Vb].
  destruct (nth_split_two ts k a b Ha Hb) as (l1 & l2 & Es).
  destruct (on_interval a b t u L (pl_ok _ _ PL l1 a b l2 Es) Va Vb Ht Hu) as (F1 & F2 & F3 & F4). repeat split; auto; lra.
Qed.
Lemma first_time : exists x, hd_error ts = Some x /\ ts_time x = 0.
Proof. destruct (pl_first _ _ PL) as (x & Hx & _ & _ & Tx). eauto. Qed.
Lemma state_range t : 0 <= t <= duration ts -> 0 <= snd (state t) /\ 0 <= fst (state t) <= p_len p.
Proof.
  intros Ht. destruct first_time as (x & Hx & Tx).
  destruct (interval_of ts t I (pl_two _ _ PL)) as (k & a & b & Ha & Hb & SA & Q); [exists x; split; [exact Hx|lra]|].
  pose proof (seg_positive ts k a b t I Ha Hb SA) as L.
  assert (B : ts_time a <= t <= ts_time b) by (destruct Q as [Q|(Q1 & _ & Q3)]; lra).
  destruct (interval_facts k a b t t Ha Hb L B B) as (F1 & F2 & _). auto.
Qed.
(** Position and speed are continuous on the whole. *)
Lemma state_local t : 0 <= t <= duration ts -> exists K r, 0 < K /\ 0 < r /\ forall u, 0 <= u <= duration ts -> Rabs (u - t) < r ->
  Rabs (snd (state u) - snd (state t)) <= K * Rabs (u - t) /\ Rabs (fst (state u) - fst (state t)) <= K * Rabs (u - t).
Proof.
  intros Ht. destruct first_time as (x & Hx & Tx).
  assert (SIDE : forall k a b, nth_error ts k = Some a -> nth_error ts (S k) = Some b -> ts_time a < ts_time b -> ts_time a <= t <= ts_time b ->
    exists K, 0 < K /\ forall u, ts_time a <= u <= ts_time b ->
      Rabs (snd (state u) - snd (state t)) <= K * Rabs (u - t) /\ Rabs (fst (state u) - fst (state t)) <= K * Rabs (u - t)).
  { intros k a b Ha Hb L B. destruct (proj1 ST a ltac:(eapply nth_error_In, Ha)) as [_ Va]. destruct (proj1 ST b ltac:(eapply nth_error_In, Hb)) as [_ Vb].
    exists (Rabs (acc_of a b) + (ts_vel a + ts_vel b) + 1). pose proof (Rabs_pos (acc_of a b)). split; [lra|].
    intros u Hu. destruct (interval_facts k a b t u Ha Hb L B Hu) as (_ & _ & F3 & F4). pose proof (Rabs_pos (u - t)). split; nra. }
  assert (RIGHT : exists K r, 0 < K /\ 0 < r /\ forall u, t <= u <= duration ts -> Rabs (u - t) < r ->
    Rabs (snd (state u) - snd (state t)) <= K * Rabs (u - t) /\ Rabs (fst (state u) - fst (state t)) <= K * Rabs (u - t)).
  { destruct (Req_dec t (duration ts)) as [->|N].
    - exists 1, 1. split; [lra|]. split; [lra|]. intros u Hu _. replace u with (duration ts) by lra. rewrite !Rminus_diag_eq, !Rabs_R0 by reflexivity. lra.
    - destruct (interval_of ts t I (pl_two _ _ PL)) as (k & a & b & Ha & Hb & SA & [Q|(Q1 & _)]); [exists x; split; [exact Hx|lra]| |lra].
      destruct (SIDE k a b Ha Hb ltac:(lra) ltac:(lra)) as (K & KP & F). exists K, (ts_time b - t). split; [exact KP|]. split; [lra|].
      intros u Hu Hr. apply F. apply Rabs_def2 in Hr. lra. }
  assert (LEFT : exists K r, 0 < K /\ 0 < r /\ forall u, 0 <= u <= t -> Rabs (u - t) < r ->
    Rabs (snd (state u) - snd (state t)) <= K * Rabs (u - t) /\ Rabs (fst (state u) - fst (state t)) <= K * Rabs (u - t)).
  { destruct (Req_dec t 0) as [->|N].
    - exists 1, 1. split; [lra|]. split; [lra|]. intros u Hu _. replace u with 0 by lra. rewrite !Rminus_diag_eq, !Rabs_R0 by reflexivity. lra.
    - destruct (left_interval t ts) as (k & a & b & Ha & Hb & Q); [exists x; split; [exact Hx|lra]| |].
      { destruct (last_in_time ts) as (z & Hz & Tz); [intros ->; discriminate Hx|]. exists z. split; [exact Hz|lra]. }
      destruct (SIDE k a b Ha Hb ltac:(lra) ltac:(lra)) as (K & KP & F). exists K, (t - ts_time a). split; [exact KP|]. split; [lra|].
      intros u Hu Hr. apply F. apply Rabs_def2 in Hr. lra. }
  destruct RIGHT as (K1 & r1 & K1P & r1P & F1), LEFT as (K2 & r2 & K2P & r2P & F2).
  exists (K1 + K2), (Rmin r1 r2). split; [lra|]. split; [apply Rmin_glb_lt; assumption|].
  intros u Hu Hr. assert (H1 := Rlt_le_trans _ _ _ Hr (Rmin_l r1 r2)). assert (H2 := Rlt_le_trans _ _ _ Hr (Rmin_r r1 r2)).
  pose proof (Rabs_pos (u - t)). destruct (Rle_dec t u) as [LE|LE].
  - destruct (F1 u ltac:(lra) H1) as [G1 G2]. split; nra.
  - destruct (F2 u ltac:(lra) H2) as [G1 G2]. split; nra.
Qed.
End Steady.

(** ** C84: with blended corners the joint velocities do not jump, up to one millionth of the speed *)
Theorem C84_velocity_partial n ws dev p vmax amax dt fuel steps ts :
  good_waypoints n ws dev -> 0 < dev -> path_make n ws dev = Some p -> path_plan n p vmax amax dt fuel = Ok steps ->
  timing steps = Some ts -> ordered ts -> duration ts <= dbl_max -> steady p ts ->
  exists Q V : R -> vec,
    (forall t, 0 <= t <= duration ts -> exists c, position_velocity n p ts fresh t = Ok (Some (Q t, V t), c)) /\
    (forall t eps, 0 <= t <= duration ts -> 0 < eps -> exists de, 0 < de /\ forall u, 0 <= u <= duration ts -> Rabs (u - t) < de ->
       norm n (vsub (V u) (V t)) <= eps + norm n (V t) / 1000000 /\ norm n (vsub (Q u) (Q t)) <= eps + / 1000000).
Proof.
  intros G DV E P T I D ST. pose proof (plan_planned _ _ _ _ _ _ _ _ P T) as PL.
  destruct (C77_derivatives n ws dev p G E) as (q & tg & cu & GET & _ & UNIT & CONT).
  exists (fun t => q (fst (state ts t))), (fun t => fun i => tg (fst (state ts t)) i * snd (state ts t)). split.
  - intros t Ht. destruct (first_time p ts PL) as (x & Hx & Tx).
    destruct (interval_of ts t I (pl_two _ _ PL)) as (k & a & b & Ha & Hb & SA & _); [exists x; split; [exact Hx|lra]|].
    destruct (pos_vel_at ts fresh k a b t I D (or_introl eq_refl) Ha Hb SA) as (c & PV & _). exists c.
    unfold position_velocity, state. rewrite PV. cbn [obind fst snd]. destruct (GET (pos_at a b t)) as (C1 & T1 & _). rewrite C1, T1. reflexivity.
  - intros t eps Ht Heps. destruct (state_range p ts PL I D ST t Ht) as [V0 S0].
    destruct (state_local p ts PL I D ST t Ht) as (K & r & KP & RP & LOC).
    set (w := snd (state ts t)) in *. set (s := fst (state ts t)) in *.
    assert (W1 : 0 < 2 * (1 + w)) by lra. set (e' := eps / (2 * (1 + w))).
    assert (EP : 0 < e') by (apply Rdiv_lt_0_compat; lra).
    assert (EW : w * e' <= eps / 2).
    { assert (X : (1 + w) * e' = eps / 2) by (unfold e'; field; lra). nra. }
    destruct (CONT s e' S0 EP) as (d & DP & CO).
    assert (M : 0 < Rmin d (eps / 2)) by (apply Rmin_glb_lt; lra).
    assert (M2 : 0 < Rmin d (eps / 2) / K) by (apply Rdiv_lt_0_compat; assumption).
    exists (Rmin r (Rmin d (eps / 2) / K)). split; [apply Rmin_glb_lt; assumption|].
    intros u Hu Hr. assert (H1 := Rlt_le_trans _ _ _ Hr (Rmin_l _ _)). assert (H2 := Rlt_le_trans _ _ _ Hr (Rmin_r _ _)).
    destruct (LOC u Hu H1) as [LV LP]. destruct (state_range p ts PL I D ST u Hu) as [Vu Su].
    assert (KU : K * Rabs (u - t) < Rmin d (eps / 2)).
    { apply (Rmult_lt_compat_l K) in H2; [|exact KP]. replace (K * (Rmin d (eps / 2) / K)) with (Rmin d (eps / 2)) in H2 by (field; lra). exact H2. }
    pose proof (Rmin_l d (eps / 2)). pose proof (Rmin_r d (eps / 2)).
    destruct (CO (fst (state ts u)) Su ltac:(lra)) as [CQ CT]. specialize (CT DV). split.
    + assert (NV : norm n (fun i => tg s i * w) = w).
      { rewrite (norm_ext n _ (fun i => w * tg s i)) by (intros i _; ring). rewrite norm_scale, UNIT, Rabs_pos_eq by lra. ring. }
      rewrite NV. set (su := fst (state ts u)) in *. set (wu := snd (state ts u)) in *.
      rewrite (norm_ext n _ (vadd (fun i => (wu - w) * tg su i) (fun i => w * vsub (tg su) (tg s) i))) by (intros i _; unfold vadd, vsub; ring).
      eapply Rle_trans; [apply norm_triangle|]. rewrite !norm_scale, UNIT, (Rabs_pos_eq w) by lra.
      assert (B2 : w * norm n (vsub (tg su) (tg s)) <= w * (e' + / 1000000)) by (apply Rmult_le_compat_l; lra). lra.
    + lra.
Qed.
Print Assumptions C84_velocity_partial.

(** ** C82: after the end the robot runs backwards along the path, ever faster, at the rate of its last deceleration *)
Theorem C82_after_end_partial n ws dev p vmax amax dt fuel steps ts :
  good_waypoints n ws dev -> path_make n ws dev = Some p -> path_plan n p vmax amax dt fuel = Ok steps ->
  timing steps = Some ts -> ordered ts -> duration ts <= dbl_max ->
  exists l a b, ts = l ++ [a; b] /\ ts_time a < duration ts /\
  let rate := ts_vel a / (duration ts - ts_time a) in
  forall t, duration ts <= t ->
  let late := t - duration ts in
  let s := p_len p - rate * (late * late) / 2 in
  exists q tg c, position_velocity n p ts fresh t = Ok (Some (q, fun i => tg i * (- rate * late)), c) /\
    path_config n p s = Ok (Some q) /\ path_tangent n p s = Ok (Some tg).
Proof.
  intros G E P T I D. pose proof (plan_planned _ _ _ _ _ _ _ _ P T) as PL.
  destruct (C77_derivatives n ws dev p G E) as (q & tg & cu & GET & _).
  destruct (first_time p ts PL) as (x & Hx & Tx).
  assert (TE : ts_time x <= duration ts) by (apply (time_le_duration ts 0); [exact I|destruct ts; [discriminate|exact Hx]]).
  destruct (interval_of ts (duration ts) I (pl_two _ _ PL)) as (k & a & b & Ha & Hb & SA & Q); [exists x; auto|].
  destruct Q as [Q|(_ & K & Tb)]; [pose proof (time_le_duration ts _ b I Hb); lra|].
  pose proof (seg_positive ts k a b _ I Ha Hb SA) as L.
  assert (ES : ts = firstn k ts ++ [a; b]).
  { destruct (nth_split_two ts k a b Ha Hb) as (l1 & l2 & Es). rewrite <- (firstn_skipn k ts) at 1. f_equal.
    pose proof (nth_lt ts _ b Hb) as LT. assert (LL : length (skipn k ts) = 2%nat) by (rewrite skipn_length; lia).
    assert (N0 : nth_error (skipn k ts) 0 = Some a) by (rewrite <- Ha; rewrite <- (firstn_skipn k ts) at 2; rewrite nth_error_app2; rewrite firstn_length; [f_equal|]; lia).
    assert (N1 : nth_error (skipn k ts) 1 = Some b) by (rewrite <- Hb; rewrite <- (firstn_skipn k ts) at 2; rewrite nth_error_app2; rewrite firstn_length; [f_equal|]; lia).
    destruct (skipn k ts) as [|u [|v [|w m]]]; try discriminate. cbn in N0, N1. congruence. }
  exists (firstn k ts), a, b. split; [exact ES|]. split; [lra|]. intros rate t Ht late s.
  assert (SB : segment_at ts t (S k)) by (left; split; [exact Ht|exact K]).
  destruct (pos_vel_at ts fresh k a b t I D (or_introl eq_refl) Ha Hb SB) as (c & PV & _).
  destruct (pl_last _ _ PL) as (y & Hy & Py & Vy & Ty). rewrite <- K, Hb in Hy. injection Hy as <-.
  pose proof (pl_ok _ _ PL (firstn k ts) a b [] ES) as IO. unfold interval_ok in IO. rewrite Vy, Py, Tb in IO.
  assert (EA : acc_of a b = - rate).
  { unfold acc_of, rate. rewrite Py, Tb. replace (p_len p - ts_pos a) with ((duration ts - ts_time a) * ((0 + ts_vel a) / 2)) by lra. field. lra. }
  assert (EV : vel_at a b t = - rate * late).
  { unfold vel_at. rewrite EA. unfold late, rate. field. lra. }
  assert (EPos : pos_at a b t = s).
  { unfold pos_at. rewrite EA. unfold s, late, rate. replace (p_len p) with (ts_pos a + (duration ts - ts_time a) * ((0 + ts_vel a) / 2)) by lra. field. lra. }
  exists (q s), (tg s), c. destruct (GET s) as (C1 & T1 & _). split; [|auto].
  unfold position_velocity. rewrite PV. cbn [obind]. rewrite EPos, EV, C1, T1. reflexivity.
Qed.
Print Assumptions C82_after_end_partial.

(** The line of TotpWitnessProps meets the hypotheses. *)
Example steady_case : good_waypoints 1 (line_ws 1) (/ 10) /\ path_make 1 (line_ws 1) (/ 10) = Some (line 1) /\
  path_plan 1 (line 1) (fun _ => 10) (fun _ => 1) 2 10 = Ok [(0, 0); (1 / 2, 1 / 2); (1, 0)] /\
  timing [(0, 0); (1 / 2, 1 / 2); (1, 0)] = Some line_ts /\ ordered line_ts /\ duration line_ts <= dbl_max /\ steady (line 1) line_ts.
Proof.
  split; [apply line_good; unfold tol; lra|]. split; [apply line_make; lra|]. split; [exact line_plan1|]. split; [exact line_timing|].
  split; [exact line_ordered|]. split; [unfold duration, line_ts; cbn [last ts_time]; pose proof dbl_max_big; lra|].
  split; [|intros x Hx y Hy; now apply line_agreed].
  intros x [<-|[<-|[<-|[]]]]; cbn; lra.
Qed.
