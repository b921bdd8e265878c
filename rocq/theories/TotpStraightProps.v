(** C163: trajectories between two waypoints: the planner returns, and how far the speed limits are kept. *)
From Coq Require Import Reals Lra Psatz Lia.
From Verif Require Import Base MathModel TotpModel TotpVec TotpPath TotpLookup TotpRoute TotpSmooth TotpProps TotpTrajModel TotpLimitProps TotpTraj TotpTrajProps TotpWitnessProps.
Open Scope R_scope.

(** ** Phase plane of a straight line: the limits are constants *)
Section Straight.
Variables (n : nat) (tg cv : R -> vec) (L : R) (vmax amax : vec) (dt A V W : R).
Hypothesis (HA : 0 < A) (HV : 0 < V) (Hdt : 0 < dt) (HL : 0 < L).
Hypothesis Hacc : forall s v mx, min_max_acc n tg cv amax s v mx = if mx : bool then A else - A.
Hypothesis Hover : forall s v, over n tg cv vmax amax s v = Rltb V v.
Hypothesis Hvel : forall s, vel_max n tg vmax s = V.
Hypothesis Hfol : forall s, follows n tg cv vmax amax s = true.
Hypothesis HW : W = V + dt * A \/ (W = V /\ 5 * (dt * A) <= V /\ 8 * tol <= V * dt).

Lemma da_pos : 0 < dt * A. Proof. apply Rmult_lt_0_compat; assumption. Qed.
Lemma W_V : V <= W. Proof. pose proof da_pos. destruct HW as [->|[-> _]]; lra. Qed.

(** The trajectory that IntegrateForward leaves, back first, without its last step. *)
Fixpoint rising (l : list step) : Prop :=
  match l with
  | [] => False
  | [s] => s = (0, 0)
  | (p2, v2) :: (((p1, v1) :: _) as r) => p1 < p2 /\ v1 <= v2 /\ 0 < v2 /\ v2 <= V /\ p2 <= L /\ v2 * v2 - v1 * v1 <= 2 * A * (p2 - p1) /\ rising r
  end.
Lemma rising_head p v l : rising ((p, v) :: l) -> 0 <= p <= L /\ 0 <= v <= V /\ (0 < p -> 0 < v).
Proof.
  revert p v. induction l as [|[p1 v1] l IH]; intros p v H; cbn [rising] in H.
  - injection H as -> ->. repeat split; lra.
  - destruct H as (H1 & H2 & H3 & H4 & H5 & _ & H6). apply IH in H6. repeat split; lra.
Qed.
Lemma rising_all l : rising l -> Forall (fun s => 0 <= snd s <= V) l.
Proof.
  induction l as [|[p v] l IH]; intros H; [constructor|]. constructor; [apply (rising_head p v l H)|]. destruct l as [|[p1 v1] l]; [constructor|]. apply IH. apply H.
Qed.
Definition delta : R := dt * (dt * A) / 2.
Lemma delta_pos : 0 < delta. Proof. pose proof da_pos. unfold delta. pose proof (Rmult_lt_0_compat dt (dt * A) Hdt H). lra. Qed.

Lemma forward_straight N : forall tr pos vel, rising ((pos, vel) :: tr) -> L - pos < INR N * delta ->
  exists p2 v2 p1 v1 r, rising ((p1, v1) :: r) /\ L < p2 /\ v2 = v1 + dt * A /\ p2 = p1 + dt / 2 * (v1 + v2) /\
    forall fuel rounds, (N <= rounds)%nat -> forward_loop n tg cv L vmax amax dt fuel rounds ((pos, vel) :: tr) [] pos vel A = Ok ((p2, v2) :: (p1, v1) :: r, true).
Proof.
  pose proof da_pos as DA. pose proof delta_pos as DP. induction N as [|N IH]; intros tr pos vel RI D.
  - cbn [INR] in D. apply rising_head in RI. lra.
  - pose proof (rising_head _ _ _ RI) as (B1 & B2 & B3). set (v := vel + dt * A). set (p := pos + dt * / 2 * (vel + v)).
    assert (PD : pos + delta <= p). { unfold p, v, delta. pose proof (Rmult_le_pos dt vel ltac:(lra) ltac:(lra)). lra. }
    rewrite S_INR in D. destruct (Rlt_dec L p) as [E|E].
    + exists p, v, pos, vel, tr. split; [exact RI|]. split; [exact E|]. split; [reflexivity|]. split; [unfold p; lra|].
      intros fuel [|rounds] HR; [lia|]. cbn [forward_loop]. rewrite (fr_end _ _ _ _ _ _ _ _ _ [] _ _ _ p v); [reflexivity|reflexivity|reflexivity|reflexivity|exact E].
    + set (v' := if Rltb V v then V else v).
      assert (RV : forward_round n tg cv L vmax amax dt = fun fuel tr disc pos vel acc => forward_round n tg cv L vmax amax dt fuel tr disc pos vel acc) by reflexivity.
      assert (V' : vel <= v' /\ 0 < v' /\ v' <= V).
      { unfold v'. destruct (Rltb V v) eqn:Q; [lra|]. apply Rltb_false in Q. unfold v in *. lra. }
      assert (FR : forall fuel, forward_round n tg cv L vmax amax dt fuel ((pos, vel) :: tr) [] pos vel A = Ok (inr ((p, v') :: (pos, vel) :: tr, [], p, v', A))).
      { intros fuel. unfold forward_round. cbn [skip_disc]. cbv zeta. fold v. fold p. rewrite (proj2 (Rltb_false _ _)) by lra. rewrite (proj2 (Rltb_false v 0)) by (unfold v; lra).
        rewrite Hvel, Hfol, andb_true_r. fold v'. rewrite Hover, (proj2 (Rltb_false V v')) by apply V'. rewrite Hacc. reflexivity. }
      assert (SQ : v' * v' - vel * vel <= 2 * A * (p - pos)).
      { replace (2 * A * (p - pos)) with (v * v - vel * vel) by (unfold p, v; field). assert (v' <= v) by (unfold v'; destruct (Rltb V v) eqn:Q; [apply Rltb_true in Q; lra|lra]). assert (v' * v' <= v * v) by (apply Rmult_le_compat; lra). lra. }
      assert (RI' : rising ((p, v') :: (pos, vel) :: tr)). { cbn [rising]. repeat split; try apply V'; try lra; try exact RI. }
      destruct (IH ((pos, vel) :: tr) p v' RI') as (p2 & v2 & p1 & v1 & r & Q1 & Q2 & Q3 & Q4 & Q5); [lra|].
      exists p2, v2, p1, v1, r. split; [exact Q1|]. split; [exact Q2|]. split; [exact Q3|]. split; [exact Q4|].
      intros fuel [|rounds] HR; [lia|]. cbn [forward_loop]. rewrite FR. cbn [obind]. apply Q5. lia.
Qed.

(** The piece of the trajectory between s1 and s2, of which s2 may be the step past the end. *)
Definition piece (s1 s2 : step) : Prop := fst s1 < fst s2 /\ snd s1 <= snd s2 /\ snd s2 * snd s2 - snd s1 * snd s1 <= 2 * A * (fst s2 - fst s1) /\
  (snd s2 <= V \/ (snd s2 = snd s1 + dt * A /\ fst s2 = fst s1 + dt / 2 * (snd s1 + snd s2) /\ L < fst s2)).
Definition chord (s1 s2 : step) (p : R) : R := snd s1 + (snd s2 - snd s1) / (fst s2 - fst s1) * (p - fst s1).
(** One step back: (pos, vel) follows (pf, vf). *)
Definition back_step (pf vf pos vel : R) : Prop := 0 <= vf /\ vel = vf + dt * A /\ pos = pf - dt / 2 * (vel + vf) /\ vel * vel = 2 * A * (L - pos) /\ vf * vf = 2 * A * (L - pf).

(** Speeds where the two curves meet. *)
Lemma chord_mono s1 s2 p q : fst s1 < fst s2 -> snd s1 <= snd s2 -> p <= q -> chord s1 s2 p <= chord s1 s2 q.
Proof.
  intros H1 H2 H3. unfold chord. assert (0 <= (snd s2 - snd s1) / (fst s2 - fst s1)) by (apply Rmult_le_pos; [lra|left; apply Rinv_0_lt_compat; lra]). nra.
Qed.
Lemma chord_ends s1 s2 : fst s1 < fst s2 -> chord s1 s2 (fst s1) = snd s1 /\ chord s1 s2 (fst s2) = snd s2.
Proof. intros H. unfold chord. split; [ring|field; lra]. Qed.
(** A chord is below the curve of constant acceleration through its ends. *)
Lemma chord_square s1 s2 p : 0 <= snd s1 -> snd s2 = snd s1 + dt * A -> fst s2 = fst s1 + dt / 2 * (snd s1 + snd s2) -> fst s1 <= p <= fst s2 ->
  chord s1 s2 p * chord s1 s2 p <= snd s1 * snd s1 + 2 * A * (p - fst s1).
Proof.
  destruct s1 as [p1 v1], s2 as [p2 v2]. cbn [fst snd]. intros H1 -> -> HP. pose proof da_pos as DA. unfold chord. cbn [fst snd].
  set (h := v1 + dt * A / 2) in *. assert (HH : 0 < h) by (unfold h; lra).
  assert (SL : (v1 + dt * A - v1) / (p1 + dt / 2 * (v1 + (v1 + dt * A)) - p1) = A / h).
  { replace (p1 + dt / 2 * (v1 + (v1 + dt * A)) - p1) with (dt * h) by (unfold h; field). replace (v1 + dt * A - v1) with (dt * A) by ring. field. split; lra. }
  rewrite SL.
  set (q := p - p1). assert (Q0 : 0 <= q) by (unfold q; lra). assert (Q1 : q <= dt * h) by (unfold q, h; lra).
  set (k := A / h). assert (K : k * h = A) by (unfold k; field; lra). assert (K0 : 0 < k) by (apply Rmult_lt_0_compat; [lra|apply Rinv_0_lt_compat; lra]).
  (* (v1 + k q)^2 <= v1^2 + 2 A q  iff  2 v1 k + k^2 q <= 2 A = 2 k h *)
  assert (KQ : k * q <= dt * A). { apply Rle_trans with (k * (dt * h)); [apply Rmult_le_compat_l; lra|]. rewrite <- K. right. ring. }
  replace ((v1 + k * q) * (v1 + k * q)) with (v1 * v1 + (k * q) * (2 * v1 + k * q)) by ring.
  replace (2 * A * q) with ((k * q) * (2 * h)) by (rewrite <- K; ring).
  assert ((k * q) * (2 * v1 + k * q) <= (k * q) * (2 * h)); [|lra]. apply Rmult_le_compat_l; [apply Rmult_le_pos; lra|]. unfold h. lra.
Qed.

Lemma meet s1 s2 q y z : piece s1 s2 -> 0 <= snd s1 <= V -> q <= fst s2 -> 0 <= y -> y <= chord s1 s2 q -> 0 <= z -> z * z <= 2 * A * (L - q) -> y <= z + 2 * tol / dt -> y <= W.
Proof.
  intros (P1 & P2 & _ & P3) HV1 HQ HY HC HZ HZ2 HE. pose proof W_V as WV. pose proof da_pos as DA.
  pose proof (chord_ends s1 s2 P1) as (C1 & C2). pose proof (chord_mono s1 s2 q (fst s2) P1 P2 HQ) as CQ. rewrite C2 in CQ.
  destruct P3 as [P3|(P3 & P4 & P5)]; [lra|]. destruct HW as [HW1|(HW1 & F1 & F2)]; [lra|]. rewrite HW1.
  destruct (Rlt_dec q (fst s1)) as [Q|Q]. { pose proof (chord_mono s1 s2 q (fst s1) P1 P2 ltac:(lra)) as X. rewrite C1 in X. lra. }
  pose proof (chord_square s1 s2 q (proj1 HV1) P3 P4 ltac:(lra)) as CS.
  assert (YY : y * y <= V * V + 2 * A * (q - fst s1)). { apply Rle_trans with (chord s1 s2 q * chord s1 s2 q); [apply Rmult_le_compat; lra|]. assert (snd s1 * snd s1 <= V * V) by (apply Rmult_le_compat; lra). lra. }
  assert (SP : 2 * A * (L - fst s1) <= dt * A * (2 * V + dt * A)).
  { apply Rle_trans with (2 * A * (fst s2 - fst s1)); [apply Rmult_le_compat_l; lra|]. rewrite P4, P3. replace (2 * A * (fst s1 + dt / 2 * (snd s1 + (snd s1 + dt * A)) - fst s1)) with (dt * A * (2 * snd s1 + dt * A)) by field. apply Rmult_le_compat_l; lra. }
  assert (SUM : y * y + z * z <= (V + dt * A) * (V + dt * A)). { replace ((V + dt * A) * (V + dt * A)) with (V * V + dt * A * (2 * V + dt * A)) by ring. lra. }
  assert (S2 : (V + dt * A) * (V + dt * A) <= (6 / 5 * V) * (6 / 5 * V)) by (apply Rmult_le_compat; lra).
  assert (E : 2 * tol / dt <= V / 4). { apply Rmult_le_reg_r with dt; [exact Hdt|]. replace (2 * tol / dt * dt) with (2 * tol) by (field; lra). lra. }
  destruct (Rle_dec y V) as [|N]; [assumption|exfalso].
  assert (V * V < y * y) by (apply Rmult_le_0_lt_compat; lra). assert ((3 / 4 * V) * (3 / 4 * V) <= z * z) by (apply Rmult_le_compat; lra).
  pose proof (Rmult_lt_0_compat V V HV HV). lra.
Qed.

Definition back_line (pf vf pos vel p : R) : R := vel + (vf - vel) / (pf - pos) * (p - pos).
Lemma back_slope pf vf pos vel : back_step pf vf pos vel -> pos < pf /\ (vf - vel) / (pf - pos) < 0 /\ - (2 / dt) <= (vf - vel) / (pf - pos).
Proof.
  intros (B1 & B2 & B3 & B4 & B5). pose proof da_pos as DA. assert (D : pf - pos = dt / 2 * (vel + vf)) by lra. assert (H : 0 < vel + vf) by lra.
  assert (D0 : 0 < pf - pos) by (rewrite D; apply Rmult_lt_0_compat; lra). assert (I : 0 < / (pf - pos)) by (apply Rinv_0_lt_compat; exact D0).
  split; [lra|]. split.
  - unfold Rdiv. replace (vf - vel) with (- (dt * A)) by lra. assert (0 < dt * A * / (pf - pos)) by (apply Rmult_lt_0_compat; assumption). lra.
  - apply Rmult_le_reg_r with (pf - pos); [exact D0|]. replace ((vf - vel) / (pf - pos) * (pf - pos)) with (vf - vel) by (field; lra). rewrite D. replace (- (2 / dt) * (dt / 2 * (vel + vf))) with (- (vel + vf)) by (field; lra). lra.
Qed.
Lemma back_line_ends pf vf pos vel : back_step pf vf pos vel -> back_line pf vf pos vel pos = vel /\ back_line pf vf pos vel pf = vf.
Proof. intros B. pose proof (back_slope _ _ _ _ B) as (H & _). unfold back_line. split; [ring|field; lra]. Qed.
Lemma back_line_square pf vf pos vel p : back_step pf vf pos vel -> pos <= p <= pf -> back_line pf vf pos vel p * back_line pf vf pos vel p <= 2 * A * (L - p).
Proof.
  intros B HP. pose proof (back_slope _ _ _ _ B) as (H & _). destruct B as (B1 & B2 & B3 & B4 & B5).
  pose proof (chord_square (- pf, vf) (- pos, vel) (- p)) as C. cbn [fst snd] in C. specialize (C B1 B2 ltac:(lra) ltac:(lra)).
  assert (E : chord (- pf, vf) (- pos, vel) (- p) = back_line pf vf pos vel p). { unfold chord, back_line. cbn [fst snd]. field. lra. }
  rewrite E in C. lra.
Qed.

(** Where the line through s1 and s2 meets the line of the last step back. *)
Lemma crossing s1 s2 pf vf pos vel : piece s1 s2 -> back_step pf vf pos vel -> exists x, intersection s1 s2 pos vel (Some ((vf - vel) / (pf - pos))) = Some (x, chord s1 s2 x) /\
  chord s1 s2 x = back_line pf vf pos vel x /\ (forall c, back_line pf vf pos vel c < chord s1 s2 c <-> x < c).
Proof.
  intros (P1 & P2 & _) B. pose proof (back_slope _ _ _ _ B) as (S1 & S2 & _).
  unfold intersection, quot. rewrite (proj2 (Reqb_false _ _)) by lra. set (m1 := (snd s2 - snd s1) / (fst s2 - fst s1)). set (m := (vf - vel) / (pf - pos)) in *.
  assert (M1 : 0 <= m1) by (apply Rmult_le_pos; [lra|left; apply Rinv_0_lt_compat; lra]).
  rewrite (proj2 (Reqb_false (m - m1) 0)) by lra. eexists. split; [reflexivity|]. unfold chord, back_line. fold m1 m.
  set (x := (snd s1 - vel + m * pos - m1 * fst s1) / (m - m1)).
  assert (X : x * (m - m1) = snd s1 - vel + m * pos - m1 * fst s1) by (unfold x; field; lra).
  split; [lra|]. intros c.
  assert (D : snd s1 + m1 * (c - fst s1) - (vel + m * (c - pos)) = (m1 - m) * (c - x)) by lra.
  split; intros H.
  - apply Rnot_le_lt. intros N. assert ((m1 - m) * (c - x) <= 0) by (apply Rmult_le_0_l || nra). lra.
  - assert (0 < (m1 - m) * (c - x)) by (apply Rmult_lt_0_compat; lra). lra.
Qed.

Definition bounded (s : step) : Prop := 0 <= snd s <= W.
(** The steps back so far, front first. *)
Fixpoint falling (pos vel : R) (tr : list step) : Prop :=
  match tr with
  | [] => pos = L /\ vel = 0
  | (pf, vf) :: r => back_step pf vf pos vel /\ falling pf vf r
  end.
(** What holds of one step and the next. *)
Definition acc_bound : R := A + 2 * tol / (dt * dt).
Definition good (a b : step) : Prop := 0 < snd a + snd b /\ fst a - tol <= fst b /\
  (fst a <= fst b -> Rabs (snd b * snd b - snd a * snd a) <= 2 * acc_bound * (fst b - fst a)).
Fixpoint adj (Q : step -> step -> Prop) (l : list step) : Prop :=
  match l with
  | a :: ((b :: _) as r) => Q a b /\ adj Q r
  | _ => True
  end.
Lemma adj_rev Q l : forall s t, adj (fun a b => Q b a) (s :: l) -> adj Q (s :: t) -> adj Q (rev l ++ s :: t).
Proof.
  induction l as [|s0 l IH]; intros s t H1 H2; [exact H2|]. destruct H1 as (H1 & H3). cbn [rev]. rewrite <- app_assoc. apply IH; [exact H3|]. split; [exact H1|exact H2].
Qed.
Lemma acc_bound_A : A <= acc_bound.
Proof. unfold acc_bound. assert (0 <= 2 * tol / (dt * dt)); [|lra]. apply Rmult_le_pos; [unfold tol; lra|left; apply Rinv_0_lt_compat, Rmult_lt_0_compat; exact Hdt]. Qed.
Lemma good_intro a b : 0 < snd a + snd b -> fst a - tol <= fst b -> (fst a <= fst b -> Rabs (snd b * snd b - snd a * snd a) <= 2 * A * (fst b - fst a)) -> good a b.
Proof.
  intros H1 H2 H3. repeat split; [exact H1|exact H2|]. intros H. pose proof acc_bound_A. eapply Rle_trans; [apply H3, H|]. apply Rmult_le_compat_r; lra.
Qed.
Lemma rising_good l : rising l -> adj (fun a b => good b a) l.
Proof.
  induction l as [|[p2 v2] l IH]; [intros []|]. destruct l as [|[p1 v1] l]; [intros; exact I|]. intros (H1 & H2 & H3 & H4 & H5 & H6 & H7). pose proof (rising_head _ _ _ H7) as (_ & B & _).
  split; [|apply IH, H7]. apply good_intro; cbn [fst snd]; [lra|unfold tol; lra|]. intros _. rewrite Rabs_right; [exact H6|]. assert (v1 * v1 <= v2 * v2) by (apply Rmult_le_compat; lra). lra.
Qed.
Lemma falling_good tr : forall pos vel, falling pos vel tr -> adj good tr.
Proof.
  induction tr as [|[pf vf] tr IH]; intros pos vel H; [exact I|]. destruct H as (_ & H). pose proof (IH _ _ H) as G. destruct tr as [|[pg vg] tr]; [exact I|].
  split; [|exact G]. destruct H as (B & _). pose proof (back_slope _ _ _ _ B) as (S1 & _). destruct B as (B1 & B2 & B3 & B4 & B5). pose proof da_pos.
  apply good_intro; cbn [fst snd]; [lra|unfold tol; lra|]. intros _. rewrite B4, B5. rewrite Rabs_left1; [lra|]. replace (2 * A * (L - pg) - 2 * A * (L - pf)) with (- (2 * A * (pg - pf))) by ring. assert (0 <= 2 * A * (pg - pf)) by (apply Rmult_le_pos; lra). lra.
Qed.
(** What the planner leaves, in order. *)
Definition planned_well (steps : list step) : Prop := Forall bounded steps /\ adj good steps.
Record inv (s1 : step) (before : list step) (s2 : step) (tr : list step) (pos vel : R) (slope : option R) : Prop := Inv {
  i_rising : rising (s1 :: before);
  i_piece : piece s1 s2;
  i_curve : vel * vel = 2 * A * (L - pos);
  i_vel : 0 <= vel;
  i_tr : Forall bounded tr;
  i_falling : falling pos vel tr;
  i_mode : (fst s1 <= pos < fst s2 /\ pos <= L /\ vel < chord s1 s2 pos) \/
    (pos < fst s1 /\ exists pf vf r, tr = (pf, vf) :: r /\ back_step pf vf pos vel /\ slope = Some ((vf - vel) / (pf - pos)) /\ fst s1 <= pf /\ back_line pf vf pos vel (fst s1) < snd s1)
}.
Lemma check_step s1 before s2 pf vf r pos vel c : rising (s1 :: before) -> piece s1 s2 -> back_step pf vf pos vel -> falling pf vf r -> Forall bounded ((pf, vf) :: r) ->
  fst s1 <= c -> pos < c -> c = Rmin (fst s2) pf -> c <= L -> back_line pf vf pos vel c < chord s1 s2 c ->
  exists x xv, intersection s1 s2 pos vel (Some ((vf - vel) / (pf - pos))) = Some (x, xv) /\
    ((Rleb (Rmax (fst s1) pos - tol) x && Rleb x (tol + Rmin (fst s2) pf) = true /\ planned_well (rev (s1 :: before) ++ (x, xv) :: (pf, vf) :: r)) \/
     (Rleb (Rmax (fst s1) pos - tol) x && Rleb x (tol + Rmin (fst s2) pf) = false /\ inv s1 before s2 ((pf, vf) :: r) pos vel (Some ((vf - vel) / (pf - pos))))).
Proof.
  intros RI PI BS FL FB C1 C2 C3 C4 C5. destruct (crossing s1 s2 pf vf pos vel PI BS) as (x & X1 & X2 & X3). exists x, (chord s1 s2 x). split; [exact X1|].
  pose proof (back_slope _ _ _ _ BS) as (S1 & S2 & S3). pose proof (back_line_ends _ _ _ _ BS) as (E1 & E2). pose proof BS as (B1 & B2 & B3 & B4 & B5). pose proof da_pos as DA.
  assert (XC : x < c) by (apply X3, C5). assert (T : 0 < tol) by (unfold tol; lra).
  assert (CM : c <= fst s2 /\ c <= pf) by (rewrite C3; split; [apply Rmin_l|apply Rmin_r]).
  rewrite (proj2 (Rleb_true x _)) by lra. rewrite andb_true_r. destruct s1 as [p1 v1] eqn:ES1. cbn [fst snd] in *. rewrite <- ES1 in *.
  pose proof (rising_head p1 v1 before ltac:(rewrite <- ES1; exact RI)) as (R1 & R2 & R3).
  destruct (Rleb (Rmax p1 pos - tol) x) eqn:Q; [left|right].
  - split; [reflexivity|]. apply Rleb_true in Q.
    assert (M2 : p1 <= Rmax p1 pos /\ pos <= Rmax p1 pos) by (split; [apply Rmax_l|apply Rmax_r]).
    assert (LO : 0 <= chord s1 s2 x).
    { rewrite X2. unfold back_line. replace (vel + (vf - vel) / (pf - pos) * (x - pos)) with (vf + - ((vf - vel) / (pf - pos)) * (pf - x)) by (field; lra).
      assert (0 <= - ((vf - vel) / (pf - pos)) * (pf - x)) by (apply Rmult_le_pos; lra). lra. }
    assert (XP : vf < chord s1 s2 x).
    { rewrite X2. unfold back_line. replace (vel + (vf - vel) / (pf - pos) * (x - pos)) with (vf + - ((vf - vel) / (pf - pos)) * (pf - x)) by (field; lra).
      assert (0 < - ((vf - vel) / (pf - pos)) * (pf - x)) by (apply Rmult_lt_0_compat; lra). lra. }
    split.
    + apply Forall_app. split; [apply Forall_rev; pose proof W_V; eapply Forall_impl; [|apply rising_all, RI]; intros a Ha; cbn beta in *; unfold bounded; lra|]. constructor; [split; [exact LO|]|exact FB].
      cbn [snd]. pose proof (Rinv_0_lt_compat dt Hdt) as ID. assert (T2 : 0 <= 2 * tol / dt) by (unfold Rdiv; apply Rmult_le_pos; lra).
      destruct (Rle_dec pos x) as [P|P].
      * apply (meet s1 s2 x _ (back_line pf vf pos vel x) PI); [rewrite ES1; exact R2|lra|exact LO|lra|lra|apply back_line_square; [exact BS|lra]|lra].
      * apply (meet s1 s2 x _ vel PI); [rewrite ES1; exact R2|lra|exact LO|lra|lra| |].
        -- rewrite B4. apply Rmult_le_compat_l; lra.
        -- rewrite X2. unfold back_line. assert ((vf - vel) / (pf - pos) * (x - pos) <= 2 / dt * tol); [|lra].
           replace ((vf - vel) / (pf - pos) * (x - pos)) with (- ((vf - vel) / (pf - pos)) * (pos - x)) by (field; lra). apply Rmult_le_compat; lra.
    + cbn [rev]. rewrite <- app_assoc. apply adj_rev; [rewrite ES1 in *; apply rising_good, RI|]. split; [|split].
      * (* from s1 to the crossing *)
        assert (FE : fst s1 = p1) by (rewrite ES1; reflexivity). assert (SE : snd s1 = v1) by (rewrite ES1; reflexivity).
        apply good_intro; cbn [fst snd]; rewrite ?FE, ?SE; [lra|lra|]. intros PX.
        destruct PI as (PI1 & PI2 & PI3 & _). pose proof (chord_ends s1 s2 PI1) as (CE & CE2).
        pose proof (chord_mono s1 s2 (fst s1) x PI1 PI2 ltac:(rewrite FE; exact PX)) as MO. pose proof (chord_mono s1 s2 x (fst s2) PI1 PI2 ltac:(lra)) as MO2. rewrite CE in MO. rewrite CE2 in MO2. 
        assert (XX : chord s1 s2 x - v1 = (snd s2 - snd s1) / (fst s2 - fst s1) * (x - p1)) by (unfold chord; rewrite FE, SE; ring).
        rewrite FE, SE in *.
        set (m1 := (snd s2 - v1) / (fst s2 - p1)) in *. set (y := chord s1 s2 x) in *.
        assert (M1 : 0 <= m1) by (apply Rmult_le_pos; [lra|left; apply Rinv_0_lt_compat; lra]).
        assert (M2' : m1 * (snd s2 + v1) <= 2 * A). { apply Rmult_le_reg_r with (fst s2 - p1); [lra|]. replace (m1 * (snd s2 + v1) * (fst s2 - p1)) with (snd s2 * snd s2 - v1 * v1) by (unfold m1; field; lra). exact PI3. }
        replace (y * y - v1 * v1) with (m1 * (y + v1) * (x - p1)) by (rewrite <- (Rmult_1_l (y + v1)) at 1; replace (y * y - v1 * v1) with ((y - v1) * (y + v1)) by ring; rewrite XX; ring).
        assert (0 <= m1 * (y + v1)) by (apply Rmult_le_pos; lra). rewrite Rabs_right by (apply Rle_ge, Rmult_le_pos; lra).
        apply Rmult_le_compat_r; [lra|]. apply Rle_trans with (m1 * (snd s2 + v1)); [apply Rmult_le_compat_l; lra|exact M2'].
      * (* from the crossing to the front *)
        repeat split; cbn [fst snd]; [lra|lra|]. intros _. rewrite Rabs_left1 by (assert (vf * vf <= chord s1 s2 x * chord s1 s2 x) by (apply Rmult_le_compat; lra); lra).
        destruct (Rle_dec pos x) as [P|P].
        -- pose proof (back_line_square _ _ _ _ x BS ltac:(lra)) as SQ. rewrite <- X2 in SQ. apply Rle_trans with (2 * A * (pf - x)); [lra|]. pose proof acc_bound_A. apply Rmult_le_compat_r; lra.
        -- set (k := - ((vf - vel) / (pf - pos))) in *. assert (K : 0 < k <= 2 / dt) by (unfold k; lra).
           assert (XX : chord s1 s2 x = vf + k * (pf - x)) by (rewrite X2; unfold back_line, k; field; lra).
           assert (K2 : k * (2 * vf + k * (pf - pos)) = 2 * A).
           { assert (KD : k * (pf - pos) = dt * A) by (unfold k; replace vel with (vf + dt * A) by lra; field; lra). rewrite KD.
             assert (D : pf - pos = dt / 2 * (2 * vf + dt * A)) by (replace (2 * vf + dt * A) with (vel + vf) by lra; lra). assert (0 < 2 * vf + dt * A) by lra. apply Rmult_eq_reg_r with (dt / 2); [|lra]. replace (k * (2 * vf + dt * A) * (dt / 2)) with (k * (pf - pos)) by (rewrite D; ring). rewrite KD. field. }
           replace (- (vf * vf - chord s1 s2 x * chord s1 s2 x)) with ((k * (2 * vf + k * (pf - pos)) + k * k * (pos - x)) * (pf - x)) by (rewrite XX; ring).
           rewrite K2. apply Rmult_le_compat_r; [lra|]. unfold acc_bound.
           assert (k * k * (pos - x) <= 2 / dt * (2 / dt) * tol). { apply Rmult_le_compat; [apply Rmult_le_pos; lra|lra|apply Rmult_le_compat; lra|lra]. }
           replace (2 * (A + 2 * tol / (dt * dt))) with (2 * A + 2 / dt * (2 / dt) * tol) by (field; lra). lra.
      * apply (falling_good _ pos vel). split; [exact BS|exact FL].
  - split; [reflexivity|]. apply Rleb_false in Q. constructor; [exact RI|exact PI|exact B4|lra|exact FB|split; [exact BS|exact FL]|].
    destruct (Rle_dec p1 pos) as [P|P].
    + left. rewrite Rmax_right in Q by exact P. rewrite ES1. cbn [fst snd]. rewrite <- ES1. split; [lra|]. split; [lra|]. rewrite <- E1 at 1. apply X3. lra.
    + right. rewrite ES1. cbn [fst snd]. split; [lra|]. exists pf, vf, r. split; [reflexivity|]. split; [exact BS|]. split; [reflexivity|]. split; [lra|].
      rewrite Rmax_left in Q by lra. pose proof (chord_ends s1 s2 (proj1 PI)) as (CE & _). rewrite ES1 in CE at 2 3. cbn [fst snd] in CE. rewrite <- CE. apply X3. lra.
Qed.

Lemma back_line_low pf vf pos vel p : back_step pf vf pos vel -> p <= pf -> vf <= back_line pf vf pos vel p.
Proof.
  intros B HP. pose proof (back_slope _ _ _ _ B) as (S1 & S2 & _). unfold back_line.
  replace (vel + (vf - vel) / (pf - pos) * (p - pos)) with (vf + - ((vf - vel) / (pf - pos)) * (pf - p)) by (field; lra).
  assert (0 <= - ((vf - vel) / (pf - pos)) * (pf - p)) by (apply Rmult_le_pos; lra). lra.
Qed.
Lemma backward_straight M : forall K before s1 s2 tr pos vel slope, inv s1 before s2 tr pos vel slope -> pos < INR K * delta -> (K + length before <= M)%nat ->
  exists out, planned_well (rev out) /\ forall fuel, (M <= fuel)%nat -> backward_loop n tg cv amax dt fuel s1 before s2 tr pos vel (- A) slope = Ok out.
Proof.
  pose proof delta_pos as DP. pose proof da_pos as DA.
  induction M as [|M IH]; intros K before s1 s2 tr pos vel slope IN HK HM.
  { exfalso. assert (K = 0%nat) by lia. assert (length before = 0%nat) by lia. destruct before; [|discriminate]. subst K. cbn [INR] in HK. destruct IN as [RI PI _ HV0 _ _ MD]. destruct s1 as [p1 v1]. cbn [rising] in RI. injection RI as -> ->. cbn [fst snd] in MD.
    destruct MD as [(X & _)|(X & pf & vf & r & _ & BS & _ & Y & Z)]; [lra|]. pose proof (back_line_low _ _ _ _ 0 BS Y). destruct BS as (B & _). lra. }
  destruct IN as [RI PI CU HV0 TR FA MD]. pose proof PI as (P1 & P2 & _). destruct s1 as [p1 v1] eqn:ES1. cbn [fst snd] in MD. pose proof (rising_head p1 v1 before RI) as (R1 & R2 & R3).
  destruct MD as [(X1 & X2 & X3)|(X1 & pf & vf & r & X2 & BS & X3 & X4 & X5)].
  - (* one step back *)
    assert (K1 : (1 <= K)%nat). { destruct K; [|lia]. cbn [INR] in HK. lra. }
    set (vel1 := vel - dt * - A). set (pos1 := pos - dt * / 2 * (vel1 + vel)).
    assert (V1 : vel1 = vel + dt * A) by (unfold vel1; lra).
    assert (BS : back_step pos vel pos1 vel1).
    { split; [exact HV0|]. split; [exact V1|]. split; [unfold pos1; lra|]. split; [|exact CU]. replace (2 * A * (L - pos1)) with (2 * A * (L - pos) + dt * A * (vel1 + vel)) by (unfold pos1; field). rewrite <- CU, V1. ring. }
    assert (PD : pos1 <= pos - delta). { unfold pos1, delta. rewrite V1. pose proof (Rmult_le_pos dt vel ltac:(lra) HV0). lra. }
    assert (FB : Forall bounded ((pos, vel) :: tr)).
    { constructor; [|exact TR]. split; [exact HV0|]. cbn [snd]. apply (meet (p1, v1) s2 pos vel vel PI); [exact R2|lra|exact HV0|lra|exact HV0|lra|]. assert (0 <= 2 * tol / dt); [|lra]. apply Rmult_le_pos; [unfold tol; lra|left; apply Rinv_0_lt_compat, Hdt]. }
    pose proof (back_line_ends _ _ _ _ BS) as (_ & E2). pose proof (back_slope _ _ _ _ BS) as (S1 & _).
    destruct (check_step (p1, v1) before s2 pos vel tr pos1 vel1 pos RI PI BS FA FB) as (x & xv & Y1 & Y2); [cbn [fst]; lra|lra|rewrite Rmin_right; lra|lra|rewrite E2; lra|].
    assert (ST : forall k, backward_loop n tg cv amax dt (S k) (p1, v1) before s2 tr pos vel (- A) slope =
       if Rleb (Rmax p1 pos1 - tol) x && Rleb x (tol + Rmin (fst s2) pos) then Ok (rev ((pos, vel) :: tr) ++ (x, xv) :: (p1, v1) :: before)
       else backward_loop n tg cv amax dt k (p1, v1) before s2 ((pos, vel) :: tr) pos1 vel1 (- A) (Some ((vel - vel1) / (pos - pos1)))).
    { intros k. cbn [backward_loop fst]. assert (Cc : match before with [] => Rleb 0 pos | _ :: _ => true end = true) by (destruct before; [apply Rleb_true; lra|reflexivity]). rewrite Cc.
      rewrite (proj2 (Rleb_true p1 pos)) by lra. cbv zeta. fold vel1. fold pos1. rewrite (proj2 (Rltb_false vel1 0)) by lra. rewrite Hacc. unfold quot. rewrite (proj2 (Reqb_false (pos - pos1) 0)) by lra. rewrite Y1. cbn [fst]. reflexivity. }
    cbn [fst] in Y2. destruct Y2 as [(Y2 & Y3)|(Y2 & Y3)].
    + exists (rev ((pos, vel) :: tr) ++ (x, xv) :: (p1, v1) :: before). split; [rewrite rev_app_distr, rev_involutive; cbn [rev] in Y3 |- *; rewrite <- !app_assoc in *; exact Y3|]. intros [|k] Hk; [lia|]. rewrite ST, Y2. reflexivity.
    + destruct K as [|K]; [lia|]. rewrite S_INR in HK. destruct (IH K before (p1, v1) s2 ((pos, vel) :: tr) pos1 vel1 _ Y3) as (out & O1 & O2); [lra|lia|].
      exists out. split; [exact O1|]. intros [|k] Hk; [lia|]. rewrite ST, Y2. apply O2. lia.
  - (* the piece before *)
    destruct before as [|[p0 v0] before].
    { exfalso. cbn [rising] in RI. injection RI as -> ->. pose proof (back_line_low _ _ _ _ 0 BS X4). destruct BS as (B & _). lra. }
    pose proof RI as (Q1 & Q2 & Q3 & Q4 & Q5 & Q6 & RI0).
    assert (PI0 : piece (p0, v0) (p1, v1)).
    { repeat split; cbn [fst snd]; [lra|lra|exact Q6|left; lra]. }
    pose proof (chord_ends _ _ (proj1 PI0)) as (_ & E2). cbn [fst snd] in E2. rewrite X2 in TR, FA. destruct FA as (_ & FA).
    destruct (check_step (p0, v0) before (p1, v1) pf vf r pos vel p1 RI0 PI0 BS FA TR) as (x & xv & Y1 & Y2); [cbn [fst]; lra|lra|cbn [fst]; rewrite Rmin_left; lra|lra|rewrite E2; exact X5|].
    assert (ST : forall k, backward_loop n tg cv amax dt (S k) (p1, v1) ((p0, v0) :: before) s2 tr pos vel (- A) slope =
       if Rleb (Rmax p0 pos - tol) x && Rleb x (tol + Rmin p1 pf) then Ok (rev ((pf, vf) :: r) ++ (x, xv) :: (p0, v0) :: before)
       else backward_loop n tg cv amax dt k (p0, v0) before (p1, v1) ((pf, vf) :: r) pos vel (- A) (Some ((vf - vel) / (pf - pos)))).
    { intros k. cbn [backward_loop fst]. rewrite (proj2 (Rleb_false p1 pos)) by lra. cbv zeta. rewrite X2, X3, Y1. cbn [fst]. reflexivity. }
    cbn [fst] in Y2. destruct Y2 as [(Y2 & Y3)|(Y2 & Y3)].
    + exists (rev ((pf, vf) :: r) ++ (x, xv) :: (p0, v0) :: before). split; [rewrite rev_app_distr, rev_involutive; cbn [rev] in Y3 |- *; rewrite <- !app_assoc in *; exact Y3|]. intros [|k] Hk; [lia|]. rewrite ST, Y2. reflexivity.
    + cbn [length] in HM. destruct (IH K before (p0, v0) (p1, v1) ((pf, vf) :: r) pos vel _ Y3 HK) as (out & O1 & O2); [lia|].
      exists out. split; [exact O1|]. intros [|k] Hk; [lia|]. rewrite ST, Y2. apply O2. lia.
Qed.

Lemma plan_straight : exists steps enough, planned_well steps /\ forall fuel, (enough <= fuel)%nat -> plan n tg cv L [] vmax amax dt fuel = Ok steps.
Proof.
  pose proof delta_pos as DP. pose proof da_pos as DA.
  assert (AR : exists N, L < INR N * delta).
  { destruct (archimed (L / delta)) as (H & _). exists (Z.to_nat (up (L / delta))). assert (U : 0 <= L / delta) by (apply Rmult_le_pos; [lra|left; apply Rinv_0_lt_compat, DP]).
    assert (0 <= up (L / delta))%Z by (apply le_IZR; lra). rewrite INR_IZR_INZ, Z2Nat.id by assumption. apply Rmult_lt_reg_r with (/ delta); [apply Rinv_0_lt_compat, DP|].
    replace (IZR (up (L / delta)) * delta * / delta) with (IZR (up (L / delta))) by (field; lra). exact H. }
  destruct AR as (N & HN).
  destruct (forward_straight N [] 0 0) as (p2 & v2 & p1 & v1 & r & R & O1 & O2 & O3 & FW); [reflexivity|lra|].
  pose proof (rising_head _ _ _ R) as (T1 & T2 & T3).
  assert (PI : piece (p1, v1) (p2, v2)). { repeat split; cbn [fst snd]; [lra|lra|rewrite O3, O2; right; field|right; auto]. }
  assert (IN : inv (p1, v1) r (p2, v2) [] L 0 (Some 0)).
  { constructor; [exact R|exact PI|lra|lra|constructor|split; reflexivity|]. left. cbn [fst snd]. split; [lra|]. split; [lra|]. unfold chord. cbn [fst snd].
    assert (0 < (v2 - v1) / (p2 - p1)) by (apply Rmult_lt_0_compat; [lra|apply Rinv_0_lt_compat; lra]).
    destruct (Rlt_dec 0 p1) as [P|P]; [specialize (T3 P); assert (0 <= (v2 - v1) / (p2 - p1) * (L - p1)) by (apply Rmult_le_pos; lra); lra|].
    assert (0 < (v2 - v1) / (p2 - p1) * (L - p1)) by (apply Rmult_lt_0_compat; lra). lra. }
  destruct (backward_straight (N + length r)%nat N r (p1, v1) (p2, v2) [] L 0 (Some 0) IN HN (le_n _)) as (out & B1 & B2).
  exists (rev out), (S (N + length r))%nat. split; [exact B1|]. intros fuel Hf. unfold plan. rewrite !Hacc.
  assert (FO : forward n tg cv L [] vmax amax dt fuel [(0, 0)] A = Ok ((p2, v2) :: (p1, v1) :: r, true)) by (unfold forward; apply FW; lia).
  destruct fuel as [|fuel]; [lia|]. cbn [plan_loop]. rewrite FO. cbn [obind]. unfold backward. cbn [fst]. rewrite (proj2 (Rltb_false L p1)) by lra. rewrite B2 by lia. reflexivity.
Qed.
End Straight.

(** ** Times *)
Lemma timing_defined l : adj (fun a b => 0 < snd a + snd b) l -> l <> [] -> exists ts, timing l = Some ts.
Proof.
  destruct l as [|[p v] l]; [intros _ H; contradiction|]. intros H _. unfold timing. generalize 0 as t. revert p v H.
  induction l as [|[p2 v2] l IH]; intros p v H t; cbn [timing_from ts_pos ts_vel ts_time]; [eauto|]. destruct H as (H1 & H2). cbn [snd] in H1.
  unfold quot. rewrite (proj2 (Reqb_false ((v2 + v) / 2) 0)) by lra. destruct (IH p2 v2 H2 (t + (p2 - p) / ((v2 + v) / 2))) as (ts & ->). eauto.
Qed.
Lemma adj_impl (P Q : step -> step -> Prop) l : (forall a b, P a b -> Q a b) -> adj P l -> adj Q l.
Proof. intros H. induction l as [|a l IH]; [auto|]. destruct l as [|b l]; [auto|]. intros (H1 & H2). split; [apply H, H1|apply IH, H2]. Qed.
Lemma adj_nth Q l k a b : adj Q l -> nth_error l k = Some a -> nth_error l (S k) = Some b -> Q a b.
Proof.
  revert k. induction l as [|x l IH]; intros k H Ha Hb; [destruct k; discriminate|]. destruct k as [|k].
  - cbn [nth_error] in Ha, Hb. injection Ha as ->. destruct l as [|y l]; [discriminate|]. injection Hb as ->. apply H.
  - cbn [nth_error] in Ha. change (nth_error l (S k) = Some b) in Hb. apply (IH k); [|exact Ha|exact Hb]. destruct l; [exact I|apply H].
Qed.

(** What the steps say about the speeds at all times. *)
Section Times.
Variables (p : path) (ts : list tstep) (W AB : R).
Hypothesis (PL : planned p ts) (OR : ordered ts) (AB0 : 0 <= AB).
Hypothesis BD : forall x, In x ts -> 0 <= ts_vel x <= W.
Hypothesis AC : forall k a b, nth_error ts k = Some a -> nth_error ts (S k) = Some b -> 0 < ts_vel a + ts_vel b /\
  (ts_pos a <= ts_pos b -> Rabs (ts_vel b * ts_vel b - ts_vel a * ts_vel a) <= 2 * AB * (ts_pos b - ts_pos a)).
Lemma pair_rate k a b : nth_error ts k = Some a -> nth_error ts (S k) = Some b -> ts_time a <= ts_time b /\ Rabs (ts_vel b - ts_vel a) <= AB * (ts_time b - ts_time a).
Proof using PL OR BD AC.
  intros Ha Hb. destruct (nth_split_two ts k a b Ha Hb) as (l1 & l2 & E). pose proof (proj1 OR l1 a b l2 E) as T. split; [exact T|].
  pose proof (pl_ok _ _ PL l1 a b l2 E) as I. unfold interval_ok in I. destruct (AC k a b Ha Hb) as (S & Q).
  assert (Q' := Q ltac:(assert (0 <= (ts_time b - ts_time a) * ((ts_vel b + ts_vel a) / 2)) by (apply Rmult_le_pos; lra); lra)). rewrite <- I in Q'.
  replace (ts_vel b * ts_vel b - ts_vel a * ts_vel a) with ((ts_vel b - ts_vel a) * (ts_vel a + ts_vel b)) in Q' by ring. rewrite Rabs_mult, (Rabs_right (ts_vel a + ts_vel b)) in Q' by lra.
  apply Rmult_le_reg_r with (ts_vel a + ts_vel b); [exact S|]. lra.
Qed.
Lemma steps_rate : forall j i a b, (i <= j)%nat -> nth_error ts i = Some a -> nth_error ts j = Some b -> Rabs (ts_vel b - ts_vel a) <= AB * (ts_time b - ts_time a).
Proof using PL OR BD AC.
  induction j as [|j IH]; intros i a b L Ha Hb.
  - replace i with 0%nat in Ha by lia. rewrite Ha in Hb. injection Hb as <-. rewrite !Rminus_diag_eq by reflexivity. rewrite Rabs_R0. lra.
  - destruct (Nat.eq_dec i (S j)) as [->|N]; [rewrite Ha in Hb; injection Hb as <-; rewrite !Rminus_diag_eq by reflexivity; rewrite Rabs_R0; lra|].
    destruct (nth_error ts j) as [m|] eqn:Hm; [|apply nth_error_None in Hm; pose proof (nth_lt ts (S j) b Hb); lia].
    pose proof (IH i a m ltac:(lia) Ha eq_refl) as H1. pose proof (pair_rate j m b Hm Hb) as (_ & H2).
    replace (ts_vel b - ts_vel a) with ((ts_vel b - ts_vel m) + (ts_vel m - ts_vel a)) by ring. eapply Rle_trans; [apply Rabs_triang|]. lra.
Qed.
(** On an interval the speed is between those of its ends. *)
Lemma vel_at_between k a b t : nth_error ts k = Some a -> nth_error ts (S k) = Some b -> ts_time a < ts_time b -> ts_time a <= t <= ts_time b ->
  exists l, 0 <= l <= 1 /\ t = ts_time a + l * (ts_time b - ts_time a) /\ vel_at a b t = ts_vel a + l * (ts_vel b - ts_vel a).
Proof using PL.
  intros Ha Hb T Ht. destruct (nth_split_two ts k a b Ha Hb) as (l1 & l2 & E). pose proof (pl_ok _ _ PL l1 a b l2 E) as I. unfold interval_ok in I.
  set (d := ts_time b - ts_time a) in *. assert (D : 0 < d) by (unfold d; lra). exists ((t - ts_time a) / d). split; [|split].
  - split; [apply Rmult_le_pos; [lra|left; apply Rinv_0_lt_compat, D]|]. apply Rmult_le_reg_r with d; [exact D|]. replace ((t - ts_time a) / d * d) with (t - ts_time a) by (field; lra). unfold d. lra.
  - field. lra.
  - unfold vel_at, acc_of. fold d. replace (ts_pos b - ts_pos a) with (d * ((ts_vel b + ts_vel a) / 2)) by lra. field. lra.
Qed.
Lemma speed_bound k a b t : nth_error ts k = Some a -> nth_error ts (S k) = Some b -> ts_time a < ts_time b -> ts_time a <= t <= ts_time b -> 0 <= vel_at a b t <= W.
Proof using PL BD.
  intros Ha Hb T Ht. destruct (vel_at_between k a b t Ha Hb T Ht) as (l & L & _ & ->). pose proof (BD a (nth_error_In _ _ Ha)). pose proof (BD b (nth_error_In _ _ Hb)).
  replace (ts_vel a + l * (ts_vel b - ts_vel a)) with ((1 - l) * ts_vel a + l * ts_vel b) by ring.
  assert (0 <= (1 - l) * ts_vel a <= (1 - l) * W) by (split; [apply Rmult_le_pos; lra|apply Rmult_le_compat_l; lra]). assert (0 <= l * ts_vel b <= l * W) by (split; [apply Rmult_le_pos; lra|apply Rmult_le_compat_l; lra]). lra.
Qed.
Lemma in_rate k a b t1 t2 : nth_error ts k = Some a -> nth_error ts (S k) = Some b -> ts_time a < ts_time b -> ts_time a <= t1 <= t2 -> t2 <= ts_time b ->
  Rabs (vel_at a b t2 - vel_at a b t1) <= AB * (t2 - t1).
Proof using PL OR BD AC.
  intros Ha Hb T H1 H2. destruct (vel_at_between k a b t1 Ha Hb T ltac:(lra)) as (l1 & L1 & T1 & ->). destruct (vel_at_between k a b t2 Ha Hb T ltac:(lra)) as (l2 & L2 & T2 & ->).
  pose proof (pair_rate k a b Ha Hb) as (_ & PR). replace (ts_vel a + l2 * (ts_vel b - ts_vel a) - (ts_vel a + l1 * (ts_vel b - ts_vel a))) with ((l2 - l1) * (ts_vel b - ts_vel a)) by ring.
  assert (D : t2 - t1 = (l2 - l1) * (ts_time b - ts_time a)) by lra. assert (LL : 0 <= l2 - l1). { apply Rnot_lt_le. intros N. assert ((l2 - l1) * (ts_time b - ts_time a) < 0 * (ts_time b - ts_time a)) by (apply Rmult_lt_compat_r; lra). lra. }
  rewrite Rabs_mult, (Rabs_right (l2 - l1)) by lra. rewrite D. replace (AB * ((l2 - l1) * (ts_time b - ts_time a))) with ((l2 - l1) * (AB * (ts_time b - ts_time a))) by ring. apply Rmult_le_compat_l; assumption.
Qed.
Lemma all_rate k1 a1 b1 k2 a2 b2 t1 t2 : nth_error ts k1 = Some a1 -> nth_error ts (S k1) = Some b1 -> nth_error ts k2 = Some a2 -> nth_error ts (S k2) = Some b2 ->
  ts_time a1 < ts_time b1 -> ts_time a2 < ts_time b2 -> ts_time a1 <= t1 <= ts_time b1 -> ts_time a2 <= t2 <= ts_time b2 -> (k1 <= k2)%nat -> t1 <= t2 ->
  Rabs (vel_at a2 b2 t2 - vel_at a1 b1 t1) <= AB * (t2 - t1).
Proof using PL OR BD AC.
  intros A1 B1 A2 B2 P1 P2 H1 H2 K T. destruct (Nat.eq_dec k1 k2) as [->|N].
  - rewrite A1 in A2. injection A2 as <-. rewrite B1 in B2. injection B2 as <-. apply (in_rate k2); [assumption..|lra|lra].
  - pose proof (steps_rate k2 (S k1) b1 a2 ltac:(lia) B1 A2) as M. pose proof (ordered_nth ts OR (S k1) k2 b1 a2 ltac:(lia) B1 A2) as TT.
    pose proof (in_rate k1 a1 b1 t1 (ts_time b1) A1 B1 P1 ltac:(lra) ltac:(lra)) as M1. pose proof (in_rate k2 a2 b2 (ts_time a2) t2 A2 B2 P2 ltac:(lra) ltac:(lra)) as M2.
    destruct (nth_split_two ts k1 a1 b1 A1 B1) as (l1 & l2 & E). rewrite (proj2 (pos_at_end a1 b1 P1 (pl_ok _ _ PL l1 a1 b1 l2 E))) in M1. rewrite (proj2 (pos_at_start a2 b2)) in M2.
    replace (vel_at a2 b2 t2 - vel_at a1 b1 t1) with ((vel_at a2 b2 t2 - ts_vel a2) + ((ts_vel a2 - ts_vel b1) + (ts_vel b1 - vel_at a1 b1 t1))) by ring.
    eapply Rle_trans; [apply Rabs_triang|]. eapply Rle_trans; [apply Rplus_le_compat_l, Rabs_triang|]. lra.
Qed.
End Times.

(** ** A path of two waypoints *)
Section Two.
Variables (n : nat) (a b : vec) (vmax amax : vec).
Definition two_len : R := norm n (vsub b a).
Definition two_dir : vec := fun i => (b i - a i) / two_len.
Definition two : path := Path [(0, Linear a b)] two_len [].
Hypothesis HL : 0 < two_len.
Lemma two_make dev : path_make n [a; b] dev = Some two.
Proof using. cbn [path_make path_segments place seg_switching map rev app pop_past tl seg_len]. unfold two, two_len. do 2 f_equal. ring. Qed.
Lemma two_tangent s : path_tangent n two s = Ok (Some two_dir).
Proof using HL. unfold path_tangent, path_segment, two. cbn [p_segs find_segment obind seg_tangent]. fold two_len. rewrite (proj2 (Reqb_false _ _)) by lra. reflexivity. Qed.
Lemma two_config s : exists q, path_config n two s = Ok (Some q).
Proof using HL. unfold path_config, path_segment, two. cbn [p_segs find_segment obind seg_config]. fold two_len. rewrite (proj2 (Reqb_false _ _)) by lra. eauto. Qed.
Lemma two_tg s : tangent_of n two s = two_dir.
Proof using HL. unfold tangent_of. rewrite two_tangent. reflexivity. Qed.
Lemma two_cv s : curvature_of n two s = vzero.
Proof using. reflexivity. Qed.
Lemma two_dir_le i : (i < n)%nat -> Rabs (two_dir i) <= 1.
Proof using HL.
  intros Hi. unfold two_dir, Rdiv. rewrite Rabs_mult, (Rabs_right (/ two_len)) by (apply Rle_ge; left; apply Rinv_0_lt_compat, HL).
  apply Rmult_le_reg_r with two_len; [exact HL|]. rewrite Rmult_assoc, Rinv_l, Rmult_1_r, Rmult_1_l by lra. apply (norm_coord n (vsub b a) i Hi).
Qed.

Definition lim (m : vec) : R := fold_left (fun r i => if Reqb (two_dir i) 0 then r else Rmin r (m i / Rabs (two_dir i))) (seq 0 n) dbl_max.
Lemma lim_spec m v : v <= lim m <-> v <= dbl_max /\ forall i, In i (seq 0 n) -> two_dir i <> 0 -> v <= m i / Rabs (two_dir i).
Proof using.
  unfold lim. apply (fold_min _ (fun i => two_dir i <> 0 -> v <= m i / Rabs (two_dir i))). intros r i _. unfold Reqb. destruct (Req_EM_T (two_dir i) 0) as [Z|N]; [intuition lra|]. rewrite le_min. tauto.
Qed.
Lemma lim_joint m i : (i < n)%nat -> 0 <= m i -> Rabs (two_dir i) * lim m <= m i.
Proof using.
  intros Hi Hm. destruct (Req_dec (two_dir i) 0) as [Z|N]; [rewrite Z, Rabs_R0; lra|]. pose proof (proj1 (lim_spec m (lim m)) (Rle_refl _)) as (_ & H). assert (P : 0 < Rabs (two_dir i)) by (apply Rabs_pos_lt, N).
  specialize (H i ltac:(apply in_seq; lia) N). apply (Rmult_le_compat_l (Rabs (two_dir i))) in H; [|lra]. replace (Rabs (two_dir i) * (m i / Rabs (two_dir i))) with (m i) in H by (field; lra). exact H.
Qed.
Lemma lim_reached m : lim m = dbl_max \/ exists j, (j < n)%nat /\ two_dir j <> 0 /\ lim m = m j / Rabs (two_dir j).
Proof using.
  unfold lim. assert (G : forall l r, (forall i, In i l -> (i < n)%nat) -> let f := fold_left (fun r i => if Reqb (two_dir i) 0 then r else Rmin r (m i / Rabs (two_dir i))) l r in
    f = r \/ exists j, (j < n)%nat /\ two_dir j <> 0 /\ f = m j / Rabs (two_dir j)).
  { induction l as [|i l IH]; intros r Hl; cbn [fold_left]; [left; reflexivity|]. set (r' := if Reqb (two_dir i) 0 then r else Rmin r (m i / Rabs (two_dir i))).
    destruct (IH r' (fun j Hj => Hl j (or_intror Hj))) as [E|E]; [|right; exact E]. unfold r' in E at 2. unfold Reqb in E. destruct (Req_EM_T (two_dir i) 0) as [Z|N]; [left; exact E|].
    destruct (Rle_dec r (m i / Rabs (two_dir i))) as [LE|GT]; [rewrite Rmin_left in E by exact LE; left; exact E|]. rewrite Rmin_right in E by lra. right. exists i. split; [apply Hl; left; reflexivity|]. split; [exact N|exact E]. }
  apply G. intros i Hi. apply in_seq in Hi. lia.
Qed.
Lemma lim_pos m : (forall i, (i < n)%nat -> 0 < m i) -> 0 < lim m.
Proof using.
  intros H. pose proof dbl_max_big. destruct (lim_reached m) as [->|(j & J1 & J2 & ->)]; [lra|]. apply Rmult_lt_0_compat; [apply H, J1|apply Rinv_0_lt_compat, Rabs_pos_lt, J2].
Qed.
Lemma lim_binds m : (exists i, (i < n)%nat /\ m i < dbl_max * Rabs (two_dir i)) -> (forall i, (i < n)%nat -> 0 < m i) ->
  lim m < dbl_max /\ exists j, (j < n)%nat /\ two_dir j <> 0 /\ Rabs (two_dir j) * lim m = m j.
Proof using.
  intros (i & Hi & H) Hm. assert (LT : lim m < dbl_max).
  { pose proof (lim_joint m i Hi ltac:(left; apply Hm, Hi)) as L. assert (0 < Rabs (two_dir i)). { destruct (Req_dec (two_dir i) 0) as [Z|N]; [rewrite Z, Rabs_R0 in H; specialize (Hm i Hi); lra|apply Rabs_pos_lt, N]. }
    apply Rmult_lt_reg_l with (Rabs (two_dir i)); lra. }
  split; [exact LT|]. destruct (lim_reached m) as [E|(j & J1 & J2 & E)]; [lra|]. exists j. split; [exact J1|]. split; [exact J2|]. rewrite E. field. apply Rabs_no_R0, J2.
Qed.
Notation tg := (tangent_of n two). Notation cv := (curvature_of n two).
Lemma fold_ext {X Y} (f g : X -> Y -> X) l : (forall x y, f x y = g x y) -> forall x, fold_left f l x = fold_left g l x.
Proof using. intros H. induction l as [|y l IH]; intros x; [reflexivity|]. cbn [fold_left]. rewrite H. apply IH. Qed.
Lemma fold_id {X Y} (f : X -> Y -> X) l : (forall x y, f x y = x) -> forall x, fold_left f l x = x.
Proof using. intros H. induction l as [|y l IH]; intros x; [reflexivity|]. cbn [fold_left]. rewrite H. apply IH. Qed.
Lemma two_vel s : vel_max n tg vmax s = lim vmax.
Proof using HL. unfold vel_max, lim. apply fold_ext. intros r i. rewrite two_tg. reflexivity. Qed.
Lemma two_acc s v mx : min_max_acc n tg cv amax s v mx = if mx : bool then lim amax else - lim amax.
Proof using HL.
  unfold min_max_acc. cbv zeta. rewrite (fold_ext _ (fun r i => if Reqb (two_dir i) 0 then r else Rmin r (amax i / Rabs (two_dir i)))).
  - fold (lim amax). destruct mx; ring.
  - intros r i. rewrite two_tg, two_cv. destruct (Reqb (two_dir i) 0); [reflexivity|]. f_equal. unfold vzero. destruct mx; unfold Rdiv; ring.
Qed.
Lemma two_over s v : over n tg cv vmax amax s v = Rltb (lim vmax) v.
Proof using HL.
  unfold over. rewrite two_vel. assert (E : acc_max_vel n tg cv amax s = None); [|rewrite E; reflexivity].
  unfold acc_max_vel. cbv zeta. apply fold_id. intros m i. rewrite two_tg, two_cv. unfold vzero at 1. rewrite (proj2 (Reqb_true 0 0)) by reflexivity. destruct (Reqb (two_dir i) 0); [reflexivity|].
  apply fold_id. intros m' j. destruct (Reqb (two_dir j) 0); [reflexivity|]. rewrite (proj2 (Reqb_true _ 0)); [reflexivity|]. unfold vzero, Rdiv. ring.
Qed.
Lemma two_active s : lim vmax < dbl_max -> two_dir (active n tg vmax s) <> 0.
Proof using HL.
  unfold active, lim. set (F := fun r i => if Reqb (two_dir i) 0 then r else Rmin r (vmax i / Rabs (two_dir i))).
  set (H := fun (m : R * nat) i => if Reqb (tg s i) 0 then m else let x := vmax i / Rabs (tg s i) in if Rltb x (fst m) then (x, i) else m).
  assert (G : forall l m k, fst (fold_left H l (m, k)) = fold_left F l m /\ (fold_left F l m < m -> two_dir (snd (fold_left H l (m, k))) <> 0) /\ (two_dir k <> 0 -> two_dir (snd (fold_left H l (m, k))) <> 0)).
  { induction l as [|i l IH]; intros m k; cbn [fold_left]; [cbn; repeat split; [lra|auto]|].
    assert (EH : H (m, k) i = if Reqb (two_dir i) 0 then (m, k) else if Rltb (vmax i / Rabs (two_dir i)) m then (vmax i / Rabs (two_dir i), i) else (m, k)) by (unfold H; rewrite two_tg; reflexivity).
    rewrite EH. assert (EF : F m i = if Reqb (two_dir i) 0 then m else Rmin m (vmax i / Rabs (two_dir i))) by reflexivity. rewrite EF. clear EH EF.
    destruct (Reqb (two_dir i) 0) eqn:Q; [apply IH|]. apply Reqb_false in Q. set (x := vmax i / Rabs (two_dir i)).
    destruct (Rltb x m) eqn:LT.
    - apply Rltb_true in LT. rewrite (Rmin_right m x) by lra. destruct (IH x i) as (I1 & I2 & I3). split; [exact I1|]. split; intros; apply I3; exact Q.
    - apply Rltb_false in LT. rewrite (Rmin_left m x) by lra. apply (IH m k). }
  intros B. exact (proj1 (proj2 (G (seq 0 n) dbl_max 0%nat)) B).
Qed.

Lemma two_follows s : (forall i, (i < n)%nat -> 0 < vmax i) -> (forall i, (i < n)%nat -> 0 < amax i) -> lim vmax < dbl_max -> follows n tg cv vmax amax s = true.
Proof using HL.
  intros HV HA B. unfold follows, phase_slope, vel_max_deriv. rewrite two_vel, two_acc, two_tg, two_cv. pose proof (lim_pos vmax HV). pose proof (lim_pos amax HA). pose proof (two_active s B) as K.
  unfold ediv. rewrite (proj2 (Reqb_false (lim vmax) 0)) by lra. set (k := active n tg vmax s) in *.
  assert (P : two_dir k * Rabs (two_dir k) <> 0) by (apply Rmult_integral_contrapositive; split; [exact K|apply Rabs_no_R0, K]).
  rewrite (proj2 (Reqb_false _ 0) P). cbn [ele]. apply Rleb_true. unfold vzero. replace (- (vmax k * 0) / (two_dir k * Rabs (two_dir k))) with 0 by (field; split; [apply Rabs_no_R0, K|exact K]).
  assert (0 < lim amax / lim vmax) by (apply Rmult_lt_0_compat; [lra|apply Rinv_0_lt_compat; lra]). unfold Rdiv in *. lra.
Qed.
End Two.

(** ** C163: the motion between two waypoints *)
(** Time steps for which the limits are kept: at full acceleration a joint needs at least five steps to reach its speed limit, and at its speed
    limit it moves by at least 8e-6 in one step. *)
Definition fine (n : nat) (vmax amax : vec) (dt : R) : Prop := forall i, (i < n)%nat -> 5 * (dt * amax i) <= vmax i /\ 8 * / 10 ^ 6 <= vmax i * dt.
Lemma tol_value : tol = / 10 ^ 6. Proof. unfold tol. lra. Qed.

Theorem C163_two_waypoints n a b dev vmax amax dt : 0 < norm n (vsub b a) -> 0 < dt ->
  (forall i, (i < n)%nat -> 0 < vmax i) -> (forall i, (i < n)%nat -> 0 < amax i) ->
  (exists i, (i < n)%nat /\ vmax i < dbl_max * (Rabs (b i - a i) / norm n (vsub b a))) ->
  exists p steps ts enough, path_make n [a; b] dev = Some p /\ (forall fuel, (enough <= fuel)%nat -> path_plan n p vmax amax dt fuel = Ok steps) /\ timing steps = Some ts /\
    (forall l1 x y l2, ts = l1 ++ x :: y :: l2 -> ts_pos x - / 10 ^ 6 <= ts_pos y) /\
    (ordered ts -> duration ts <= dbl_max -> exists Q V : R -> vec,
       (forall t, 0 <= t <= duration ts -> exists c, position_velocity n p ts fresh t = Ok (Some (Q t, V t), c)) /\
       (forall i t, (i < n)%nat -> 0 <= t <= duration ts -> Rabs (V t i) <= vmax i + dt * amax i) /\
       (fine n vmax amax dt -> forall i t, (i < n)%nat -> 0 <= t <= duration ts -> Rabs (V t i) <= vmax i) /\
       (forall i t1 t2, (i < n)%nat -> 0 <= t1 <= t2 -> t2 <= duration ts -> Rabs (V t2 i - V t1 i) <= (amax i + 2 * / 10 ^ 6 / (dt * dt)) * (t2 - t1))).
Proof.
  intros HL Hdt HV HA HB. set (u := two_dir n a b). fold (two_len n a b) in HL.
  assert (HB' : exists i, (i < n)%nat /\ vmax i < dbl_max * Rabs (u i)).
  { destruct HB as (i & Hi & H). exists i. split; [exact Hi|]. unfold u, two_dir. unfold Rdiv. rewrite Rabs_mult, (Rabs_right (/ two_len n a b)) by (apply Rle_ge; left; apply Rinv_0_lt_compat, HL). exact H. }
  set (A := lim n a b amax). set (V := lim n a b vmax).
  assert (PA : 0 < A) by (apply lim_pos, HA). assert (PV : 0 < V) by (apply lim_pos, HV).
  destruct (lim_binds n a b vmax HB' HV) as (LT & j & J1 & J2 & J3). fold V in LT, J3. fold u in J2, J3.
  set (pl := plan_straight n (tangent_of n (two n a b)) (curvature_of n (two n a b)) (two_len n a b) vmax amax dt A V).
  assert (PS : forall W, W = V + dt * A \/ (W = V /\ 5 * (dt * A) <= V /\ 8 * tol <= V * dt) -> exists steps enough, planned_well dt A W steps /\ forall fuel, (enough <= fuel)%nat -> path_plan n (two n a b) vmax amax dt fuel = Ok steps).
  { intros W HW. apply (pl W PA PV Hdt HL); [intros s v mx; apply two_acc, HL|intros s v; apply two_over, HL|intros s; apply two_vel, HL|intros s; apply two_follows; assumption|exact HW]. }
  destruct (PS (V + dt * A) (or_introl eq_refl)) as (steps & enough & (BD & AD) & RUN).
  assert (NE : steps <> []). { pose proof (RUN enough (le_n _)) as P. apply plan_ends in P. destruct P as (m & ->). discriminate. }
  destruct (timing_defined steps) as (ts & TS); [eapply adj_impl; [|exact AD]; intros x y H; apply H|exact NE|].
  exists (two n a b), steps, ts, enough. split; [apply two_make|]. split; [exact RUN|]. split; [exact TS|].
  pose proof (timing_spec _ _ TS) as (F2 & _ & _).
  assert (AN : forall k x y, nth_error ts k = Some x -> nth_error ts (S k) = Some y -> good dt A (ts_pos x, ts_vel x) (ts_pos y, ts_vel y)).
  { intros k x y Hx Hy. destruct (forall2_nth _ _ _ _ _ F2 Hx) as (sx & Sx & X1 & X2). destruct (forall2_nth _ _ _ _ _ F2 Hy) as (sy & Sy & Y1 & Y2). pose proof (adj_nth _ _ _ _ _ AD Sx Sy) as G.
    destruct sx as [px vx], sy as [py vy]. cbn [fst snd] in *. subst. exact G. }
  split.
  { intros l1 x y l2 E. assert (Hx : nth_error ts (length l1) = Some x) by (rewrite E, nth_error_app2, Nat.sub_diag by lia; reflexivity).
    assert (Hy : nth_error ts (S (length l1)) = Some y). { rewrite E, nth_error_app2 by lia. replace (S (length l1) - length l1)%nat with 1%nat by lia. reflexivity. }
    destruct (AN _ _ _ Hx Hy) as (_ & G & _). cbn [fst] in G. rewrite tol_value in G. exact G. }
  intros OR DU. pose proof (plan_planned _ _ _ _ _ _ _ _ (RUN enough (le_n _)) TS) as PL.
  assert (BT : forall W st, Forall (bounded W) st -> st = steps -> forall x, In x ts -> 0 <= ts_vel x <= W).
  { intros W st FB -> x Hx. apply In_nth_error in Hx. destruct Hx as (k & Hk). destruct (forall2_nth _ _ _ _ _ F2 Hk) as (sx & Sx & X1 & X2). rewrite Forall_forall in FB. pose proof (FB sx (nth_error_In _ _ Sx)) as B. unfold bounded in B. rewrite <- X2 in B || rewrite X2. exact B. }
  set (AB := acc_bound dt A).
  assert (AC : forall k x y, nth_error ts k = Some x -> nth_error ts (S k) = Some y -> 0 < ts_vel x + ts_vel y /\ (ts_pos x <= ts_pos y -> Rabs (ts_vel y * ts_vel y - ts_vel x * ts_vel x) <= 2 * AB * (ts_pos y - ts_pos x))).
  { intros k x y Hx Hy. destruct (AN _ _ _ Hx Hy) as (G1 & _ & G2). split; [exact G1|exact G2]. }
  assert (FIND : forall t, 0 <= t <= duration ts -> exists k x y, nth_error ts k = Some x /\ nth_error ts (S k) = Some y /\ segment_at ts t (S k) /\ ts_time x < ts_time y /\ ts_time x <= t <= ts_time y).
  { intros t Ht. destruct (interval_of ts t OR (pl_two _ _ PL)) as (k & x & y & Hx & Hy & SA & C).
    { destruct (pl_first _ _ PL) as (z & Hz & _ & _ & Tz). exists z. split; [exact Hz|lra]. }
    exists k, x, y. pose proof (seg_positive ts k x y t OR Hx Hy SA). repeat (split; [assumption|]). lra. }
  set (st := fun t => match pos_vel ts fresh t with Ok (Some sv, _) => sv | _ => (0, 0) end).
  set (cf := fun s => match path_config n (two n a b) s with Ok (Some q) => q | _ => vzero end).
  assert (ST : forall t k x y, nth_error ts k = Some x -> nth_error ts (S k) = Some y -> segment_at ts t (S k) -> st t = (pos_at x y t, vel_at x y t)).
  { intros t k x y Hx Hy SA. destruct (pos_vel_at ts fresh k x y t OR DU (or_introl eq_refl) Hx Hy SA) as (c & Q & _). unfold st. rewrite Q. reflexivity. }
  exists (fun t => cf (fst (st t))), (fun t i => u i * snd (st t)). 
  assert (SPEED : forall W, (forall x, In x ts -> 0 <= ts_vel x <= W) -> forall t, 0 <= t <= duration ts -> 0 <= snd (st t) <= W).
  { intros W BW t Ht. destruct (FIND t Ht) as (k & x & y & Hx & Hy & SA & T1 & T2). rewrite (ST t k x y Hx Hy SA). cbn [snd]. apply (speed_bound (two n a b) ts W PL BW k); assumption. }
  assert (UJ : forall i, Rabs (u i) = Rabs (u i)) by reflexivity.
  assert (LJ : forall i, (i < n)%nat -> Rabs (u i) * V <= vmax i /\ Rabs (u i) * A <= amax i) by (intros i Hi; split; apply lim_joint; [exact Hi|left; apply HV, Hi|exact Hi|left; apply HA, Hi]).
  split; [|split; [|split]].
  - intros t Ht. destruct (FIND t Ht) as (k & x & y & Hx & Hy & SA & T1 & T2). destruct (pos_vel_at ts fresh k x y t OR DU (or_introl eq_refl) Hx Hy SA) as (c & PVt & _). exists c.
    unfold position_velocity. rewrite PVt. cbn [obind]. rewrite (ST t k x y Hx Hy SA). cbn [fst snd]. unfold cf. destruct (two_config n a b HL (pos_at x y t)) as (q & ->). rewrite two_tangent by exact HL. reflexivity.
  - intros i t Hi Ht. pose proof (SPEED _ (BT _ _ BD eq_refl) t Ht) as S. rewrite Rabs_mult, (Rabs_right (snd (st t))) by lra. destruct (LJ i Hi) as (L1 & L2). pose proof (Rabs_pos (u i)) as UP.
    apply Rle_trans with (Rabs (u i) * (V + dt * A)); [apply Rmult_le_compat_l; lra|]. replace (Rabs (u i) * (V + dt * A)) with (Rabs (u i) * V + dt * (Rabs (u i) * A)) by ring. apply Rplus_le_compat; [exact L1|apply Rmult_le_compat_l; lra].
  - intros FI i t Hi Ht. destruct (LJ i Hi) as (L1 & _). destruct (LJ j J1) as (_ & L2). destruct (FI j J1) as (F1 & F3). assert (UP : 0 < Rabs (u j)) by (apply Rabs_pos_lt, J2). pose proof (two_dir_le n a b HL j J1) as U1. fold u in U1.
    assert (C1 : 5 * (dt * A) <= V). { apply Rmult_le_reg_l with (Rabs (u j)); [exact UP|]. rewrite J3. apply Rle_trans with (5 * (dt * amax j)); [|exact F1]. replace (Rabs (u j) * (5 * (dt * A))) with (5 * (dt * (Rabs (u j) * A))) by ring. apply Rmult_le_compat_l; [lra|]. apply Rmult_le_compat_l; lra. }
    assert (C2 : 8 * tol <= V * dt). { rewrite tol_value. eapply Rle_trans; [exact F3|]. apply Rmult_le_compat_r; [lra|]. rewrite <- J3. rewrite <- (Rmult_1_l V) at 2. apply Rmult_le_compat_r; lra. }
    destruct (PS V (or_intror (conj eq_refl (conj C1 C2)))) as (steps' & enough' & (BD' & _) & RUN').
    assert (E : steps' = steps). { pose proof (RUN (Nat.max enough enough') ltac:(lia)) as R1. pose proof (RUN' (Nat.max enough enough') ltac:(lia)) as R2. rewrite R1 in R2. injection R2 as ->. reflexivity. }
    pose proof (SPEED _ (BT _ _ BD' E) t Ht) as S. rewrite Rabs_mult, (Rabs_right (snd (st t))) by lra. eapply Rle_trans; [|exact L1]. apply Rmult_le_compat_l; [apply Rabs_pos|lra].
  - intros i t1 t2 Hi H1 H2. destruct (FIND t1 ltac:(lra)) as (k1 & x1 & y1 & X1 & Y1 & S1 & P1 & Q1). destruct (FIND t2 ltac:(lra)) as (k2 & x2 & y2 & X2 & Y2 & S2 & P2 & Q2).
    rewrite (ST t1 k1 x1 y1 X1 Y1 S1), (ST t2 k2 x2 y2 X2 Y2 S2). cbn [snd]. rewrite <- Rmult_minus_distr_l, Rabs_mult.
    assert (K : Rabs (vel_at x2 y2 t2 - vel_at x1 y1 t1) <= AB * (t2 - t1)).
    { destruct (Nat.le_gt_cases k1 k2) as [LE|GT]; [apply (all_rate (two n a b) ts (V + dt * A) AB PL OR (BT _ _ BD eq_refl) AC k1 x1 y1 k2 x2 y2); try assumption; lra|].
      pose proof (ordered_nth ts OR (S k2) k1 y2 x1 ltac:(lia) Y2 X1). assert (t1 = t2) by lra. subst t2.
      rewrite Rabs_minus_sym. eapply Rle_trans; [apply (all_rate (two n a b) ts (V + dt * A) AB PL OR (BT _ _ BD eq_refl) AC k2 x2 y2 k1 x1 y1); try assumption; try lra; lia|lra]. }
    pose proof (Rabs_pos (u i)) as UP. apply Rle_trans with (Rabs (u i) * (AB * (t2 - t1))); [apply Rmult_le_compat_l; assumption|]. rewrite <- Rmult_assoc. apply Rmult_le_compat_r; [lra|].
    unfold AB, acc_bound. rewrite tol_value. rewrite Rmult_plus_distr_l. destruct (LJ i Hi) as (_ & L2). apply Rplus_le_compat; [exact L2|].
    assert (0 <= 2 * / 10 ^ 6 / (dt * dt)) by (apply Rmult_le_pos; [lra|left; apply Rinv_0_lt_compat, Rmult_lt_0_compat; exact Hdt]).
    pose proof (two_dir_le n a b HL i Hi) as U1. fold u in U1. rewrite <- (Rmult_1_l (2 * / 10 ^ 6 / (dt * dt))) at 2. apply Rmult_le_compat_r; assumption.
Qed.
Print Assumptions C163_two_waypoints.

(** A case that meets the hypotheses and the finer condition: the line of length 1 with limits 10 and 1 and time step 2. *)
Example C163_met : 0 < norm 1 (vsub (corner 1 0) (corner 0 0)) /\ [corner 0 0; corner 1 0] = line_ws 1 /\
  (exists i, (i < 1)%nat /\ 10 < dbl_max * (Rabs (corner 1 0 i - corner 0 0 i) / norm 1 (vsub (corner 1 0) (corner 0 0)))) /\ fine 1 (fun _ => 10) (fun _ => 1) 2 /\
  path_plan 1 (line 1) (fun _ => 10) (fun _ => 1) 2 10 = Ok [(0, 0); (1 / 2, 1 / 2); (1, 0)] /\ timing [(0, 0); (1 / 2, 1 / 2); (1, 0)] = Some line_ts /\ ordered line_ts /\ duration line_ts <= dbl_max.
Proof.
  pose proof dbl_max_big as DM. rewrite (line_norm 1) by lra. split; [lra|]. split; [reflexivity|]. split.
  { exists 0%nat. split; [lia|]. cbn [corner]. rewrite Rminus_0_r, Rabs_R1. lra. }
  split; [intros i _; lra|]. destruct line_meets as (_ & _ & M3 & M4 & M5 & M6). auto.
Qed.

(** The speed limit is not kept with coarse time steps: with limits 1/4 and 1, time step 2, the joint moves at 1/2. *)
Lemma line_plan_any vmax : path_plan 1 (line 1) vmax (fun _ => 1) 2 10 = Ok [(0, 0); (1 / 2, 1 / 2); (1, 0)].
Proof.
  unfold path_plan, plan. rewrite !line_acc by lra.
  assert (F : forward 1 (tangent_of 1 (line 1)) (curvature_of 1 (line 1)) (p_len (line 1)) (p_switch (line 1)) vmax (fun _ => 1) 2 10 [(0, 0)] 1 = Ok ([(2, 2); (0, 0)], true)).
  { unfold forward. cbn [forward_loop p_len p_switch line]. rewrite (fr_end _ _ _ _ _ _ _ _ _ _ _ _ _ 2 2); [reflexivity|reflexivity|lra|lra|cbn [p_len line]; lra]. }
  assert (B : backward 1 (tangent_of 1 (line 1)) (curvature_of 1 (line 1)) (fun _ => 1) 2 10 [(2, 2); (0, 0)] (p_len (line 1)) 0 (-1) = Ok [(1, 0); (1 / 2, 1 / 2); (0, 0)]).
  { unfold backward. cbn [fst snd p_len line]. rdec. apply (bl_hit _ _ _ _ _ _ _ _ _ _ _ _ (-1) 2); cbn [fst snd]; try lra.
    - unfold quot. rdec. unfold intersection, quot. cbn [fst snd]. rdec.
      replace (Reqb ((0 - 2) / (1 - -1) - (2 - 0) / (2 - 0)) 0) with false by (symmetry; apply Reqb_false; intros X; assert ((0 - 2) / (1 - -1) - (2 - 0) / (2 - 0) = -2) by field; lra).
      do 2 f_equal; field.
    - rewrite Rmax_left by lra. unfold tol. lra.
    - rewrite Rmin_right by lra. unfold tol. lra. }
  cbn [plan_loop]. rewrite F. cbn [obind]. rewrite B. reflexivity.
Qed.
Theorem C163_speed_refuted : exists n ws dev p vmax amax dt fuel steps ts t q v c,
  good_waypoints n ws dev /\ path_make n ws dev = Some p /\ path_plan n p vmax amax dt fuel = Ok steps /\ timing steps = Some ts /\ ordered ts /\
  0 <= t <= duration ts /\ position_velocity n p ts fresh t = Ok (Some (q, v), c) /\ vmax 0%nat = 1 / 4 /\ v 0%nat = 1 / 2.
Proof.
  destruct (line_state 2 ltac:(lra)) as (c & PV).
  exists 1%nat, (line_ws 1), 0, (line 1), (fun _ => 1 / 4), (fun _ => 1), 2, 10%nat, [(0, 0); (1 / 2, 1 / 2); (1, 0)], line_ts, 2. do 2 eexists. exists c.
  destruct line_meets as (M1 & M2 & _ & M4 & M5 & M6). split; [exact M1|]. split; [exact M2|]. split; [apply line_plan_any|]. split; [exact M4|]. split; [exact M5|].
  split; [unfold duration, line_ts; cbn [last ts_time]; lra|]. split; [|split; [reflexivity|]].
  - unfold position_velocity. rewrite PV. cbn [obind]. unfold path_config, path_tangent, path_segment. cbn [line p_segs find_segment obind seg_config seg_tangent]. rewrite line_norm by lra. rdec. reflexivity.
  - cbn beta. cbn [corner]. field.
Qed.
Print Assumptions C163_speed_refuted.

(** The deceleration at the end of a short move: limit 1, time step 1/400, but the joint slows down at 1.32. *)
Theorem C163_acceleration_refuted : exists n ws dev p vmax amax dt fuel steps ts t1 t2 q1 v1 c1 q2 v2 c2,
  good_waypoints n ws dev /\ path_make n ws dev = Some p /\ path_plan n p vmax amax dt fuel = Ok steps /\ timing steps = Some ts /\ ordered ts /\
  0 <= t1 < t2 /\ t2 <= duration ts /\ position_velocity n p ts fresh t1 = Ok (Some (q1, v1), c1) /\ position_velocity n p ts fresh t2 = Ok (Some (q2, v2), c2) /\
  amax 0%nat = 1 /\ v1 0%nat - v2 0%nat = 132 / 100 * (t2 - t1).
Proof.
  pose proof dbl_max_big as DM.
  set (h := / 400). set (L := / 160000 + 4 * tol). assert (HL : 0 < L) by (unfold L, tol; lra). set (p1 := / 320000). set (x := p1 + 3 * tol). set (xv := h + 800 * tol).
  assert (PP : path_plan 1 (line L) (fun _ => 10) (fun _ => 1) h 10 = Ok [(0, 0); (p1, h); (x, xv); (L, 0)]).
  { unfold path_plan, plan. rewrite !line_acc by exact HL.
    assert (F : forward 1 (tangent_of 1 (line L)) (curvature_of 1 (line L)) (p_len (line L)) (p_switch (line L)) (fun _ => 10) (fun _ => 1) h 10 [(0, 0)] 1 = Ok ([(4 * p1, 2 * h); (p1, h); (0, 0)], true)).
    { unfold forward. cbn [forward_loop p_switch line].
      rewrite (fr_step _ _ _ _ _ _ _ _ _ _ _ _ _ p1 h); [|reflexivity|lra|unfold p1, h; field|cbn [p_len line]; unfold p1, L, tol; lra|unfold h; lra|apply line_over; [exact HL|unfold h; lra]]. cbn [obind].
      rewrite line_acc by exact HL. rewrite (fr_end _ _ _ _ _ _ _ _ _ _ _ _ _ (4 * p1) (2 * h)); [reflexivity|reflexivity|lra|unfold p1, h; field|cbn [p_len line]; unfold p1, L, tol; lra]. }
    assert (B : backward 1 (tangent_of 1 (line L)) (curvature_of 1 (line L)) (fun _ => 1) h 10 [(4 * p1, 2 * h); (p1, h); (0, 0)] (p_len (line L)) 0 (-1) = Ok [(L, 0); (x, xv); (p1, h); (0, 0)]).
    { unfold backward. cbn [fst snd p_len line]. rewrite (proj2 (Rltb_false _ _)) by (unfold p1, L, tol; lra). apply (bl_hit _ _ _ _ _ _ _ _ _ _ _ _ (p1 + 4 * tol) h); cbn [fst snd].
      - unfold p1, L, tol; lra.
      - left. discriminate.
      - lra.
      - unfold L, p1, h. field.
      - unfold h. lra.
      - unfold quot. rewrite (proj2 (Reqb_false (L - (p1 + 4 * tol)) 0)) by (unfold L, p1, tol; lra). unfold intersection, quot. cbn [fst snd]. rewrite (proj2 (Reqb_false (4 * p1 - p1) 0)) by (unfold p1; lra).
        assert (E1 : (0 - h) / (L - (p1 + 4 * tol)) = -800) by (replace (L - (p1 + 4 * tol)) with (/ 320000) by (unfold L, p1; field); unfold h; field).
        assert (E2 : (2 * h - h) / (4 * p1 - p1) = 800 / 3) by (unfold h, p1; field). rewrite E1, E2. rdec.
        assert (E3 : (h - h + -800 * (p1 + 4 * tol) - 800 / 3 * p1) / (-800 - 800 / 3) = x) by (unfold x; field). rewrite E3. repeat f_equal. unfold xv, x. field.
      - rewrite Rmax_right by (unfold tol; lra). unfold x, tol. lra.
      - rewrite Rmin_right by (unfold L, p1, tol; lra). unfold x, L, p1, tol. lra. }
    cbn [plan_loop]. rewrite F. cbn [obind]. rewrite B. reflexivity. }
  set (t1 := h + 6 * tol / (xv + h)). set (t2 := t1 + xv / (132 / 100)).
  assert (H1 : 0 < h < t1) by (unfold t1; assert (0 < 6 * tol / (xv + h)) by (apply Rmult_lt_0_compat; [unfold tol; lra|apply Rinv_0_lt_compat; unfold xv, h, tol; lra]); unfold h in *; lra).
  assert (H2 : t1 < t2) by (unfold t2, xv, h, tol; lra).
  assert (H3 : t2 <= 1). { unfold t2, t1. assert (6 * tol / (xv + h) <= / 10). { apply Rmult_le_reg_r with (xv + h); [unfold xv, h, tol; lra|]. unfold Rdiv. rewrite Rmult_assoc, Rinv_l by (unfold xv, h, tol; lra). unfold xv, h, tol. lra. } unfold xv, h, tol in *. lra. }
  set (ts := [TStep 0 0 0; TStep p1 h h; TStep x xv t1; TStep L 0 t2]).
  assert (TT : timing [(0, 0); (p1, h); (x, xv); (L, 0)] = Some ts).
  { unfold timing, ts. cbn [timing_from ts_pos ts_vel ts_time]. unfold quot.
    rewrite (proj2 (Reqb_false ((h + 0) / 2) 0)) by (unfold h; lra). rewrite (proj2 (Reqb_false ((xv + h) / 2) 0)) by (unfold xv, h, tol; lra). rewrite (proj2 (Reqb_false ((0 + xv) / 2) 0)) by (unfold xv, h, tol; lra).
    assert (E1 : 0 + (p1 - 0) / ((h + 0) / 2) = h) by (unfold p1, h; field). rewrite E1.
    assert (E2 : h + (x - p1) / ((xv + h) / 2) = t1) by (unfold t1, x; field; unfold xv, h, tol; lra). rewrite E2.
    assert (E3 : t1 + (L - x) / ((0 + xv) / 2) = t2). { unfold t2. f_equal. assert (Q : (L - x) * 2 * (132 / 100) = xv * xv) by (unfold L, x, p1, xv, h, tol; lra). apply Rmult_eq_reg_r with (xv * (132 / 100)); [|unfold xv, h, tol; lra].
      replace ((L - x) / ((0 + xv) / 2) * (xv * (132 / 100))) with ((L - x) * 2 * (132 / 100)) by (field; unfold xv, h, tol; lra). rewrite Q. field. }
    rewrite E3. reflexivity. }
  assert (OR : ordered ts).
  { split.
    - intros l1 a b l2 E. unfold ts in E. destruct l1 as [|? [|? [|? [|? l]]]]; cbn [app] in E; try discriminate.
      + injection E as <- <- _. cbn. lra.
      + injection E as _ <- <- _. cbn. lra.
      + injection E as _ _ <- <- _. cbn. lra.
      + destruct l; discriminate.
    - intros l1 a b E. unfold ts in E. destruct l1 as [|? [|? [|? [|? l]]]]; cbn [app] in E; try discriminate.
      + injection E as _ _ <- <-. cbn. lra.
      + destruct l; discriminate. }
  assert (DU : duration ts <= dbl_max) by (unfold duration, ts; cbn [last ts_time]; lra).
  assert (G : good_waypoints 1 (line_ws L) 0) by (apply line_good; unfold L, tol; lra). assert (M : path_make 1 (line_ws L) 0 = Some (line L)) by (apply line_make, HL).
  destruct (C81_trajectory_steps 1 (line_ws L) 0 (line L) _ _ _ _ _ _ G M PP TT OR DU (TStep x xv t1)) as (q1 & g1 & c1 & S1 & _ & T1).
  { unfold ts. cbn. auto. }
  { intros y Hy. unfold ts in Hy. cbn [In] in Hy. destruct Hy as [<-|[<-|[<-|[<-|[]]]]]; cbn [ts_time ts_vel]; intros; lra. }
  destruct (C81_trajectory_steps 1 (line_ws L) 0 (line L) _ _ _ _ _ _ G M PP TT OR DU (TStep L 0 t2)) as (q2 & g2 & c2 & S2 & _ & T2).
  { unfold ts. cbn. auto. }
  { intros y Hy. unfold ts in Hy. cbn [In] in Hy. destruct Hy as [<-|[<-|[<-|[<-|[]]]]]; cbn [ts_time ts_vel]; intros; lra. }
  exists 1%nat, (line_ws L), 0, (line L), (fun _ => 10), (fun _ => 1), h, 10%nat, [(0, 0); (p1, h); (x, xv); (L, 0)], ts, t1, t2, q1, (fun i => g1 i * xv), c1, q2, (fun i => g2 i * 0), c2.
  split; [exact G|]. split; [exact M|]. split; [exact PP|]. split; [exact TT|]. split; [exact OR|]. split; [lra|]. split; [unfold duration, ts; cbn [last ts_time]; lra|].
  split; [exact S1|]. split; [exact S2|]. split; [reflexivity|].
  assert (E : g1 0%nat = 1). { pose proof (line_tg L x HL) as T. unfold tangent_of in T. cbn [ts_pos] in T1. rewrite T1 in T. exact T. }
  cbn beta. rewrite E. unfold t2. field.
Qed.
Print Assumptions C163_acceleration_refuted.

(** A joint that has to move but may not accelerate: the constructor does not return. *)
Theorem C163_zero_acceleration_refuted n a b dev vmax amax dt : 0 < norm n (vsub b a) ->
  (forall i, (i < n)%nat -> 0 <= vmax i) -> (forall i, (i < n)%nat -> 0 <= amax i) -> (exists i, (i < n)%nat /\ b i <> a i /\ amax i = 0) ->
  exists p, path_make n [a; b] dev = Some p /\ forall fuel, path_plan n p vmax amax dt fuel = NoFuel.
Proof.
  intros HL HV HA (i & Hi & Hne & Hz). fold (two_len n a b) in HL. exists (two n a b). split; [apply two_make|]. pose proof dbl_max_big as DM.
  assert (N : two_dir n a b i <> 0). { unfold two_dir. intros E. apply Hne. apply Rmult_eq_compat_r with (r := two_len n a b) in E. replace ((b i - a i) / two_len n a b * two_len n a b) with (b i - a i) in E by (field; lra). lra. }
  assert (NN : forall m : vec, (forall i, (i < n)%nat -> 0 <= m i) -> 0 <= lim n a b m).
  { intros m Hm. apply lim_spec. split; [lra|]. intros k Hk Nk. apply in_seq in Hk. apply Rmult_le_pos; [apply Hm; lia|left; apply Rinv_0_lt_compat, Rabs_pos_lt, Nk]. }
  assert (A0 : lim n a b amax = 0).
  { pose proof (NN amax HA) as P. pose proof (lim_joint n a b amax i Hi (HA i Hi)) as J. rewrite Hz in J. assert (0 < Rabs (two_dir n a b i)) by (apply Rabs_pos_lt, N).
    destruct (Rle_lt_or_eq_dec 0 (lim n a b amax) P) as [Q|Q]; [|lra]. assert (0 < Rabs (two_dir n a b i) * lim n a b amax) by (apply Rmult_lt_0_compat; assumption). lra. }
  pose proof (NN vmax HV) as V0.
  assert (FR : forall rounds fuel tr, forward_loop n (tangent_of n (two n a b)) (curvature_of n (two n a b)) (two_len n a b) vmax amax dt fuel rounds tr [] 0 0 0 = NoFuel).
  { induction rounds as [|k IH]; intros fuel tr; [reflexivity|]. cbn [forward_loop]. rewrite (fr_step _ _ _ _ _ _ _ fuel tr [] 0 0 0 0 0); [|reflexivity|ring|ring|lra|lra|rewrite two_over by exact HL; apply Rltb_false; exact V0].
    cbn [obind]. rewrite two_acc by exact HL. rewrite A0. apply IH. }
  intros [|k]; [reflexivity|]. unfold path_plan, plan. rewrite two_acc by exact HL. rewrite A0. cbn [plan_loop]. unfold forward. cbn [p_switch p_len two]. rewrite FR. reflexivity.
Qed.
Print Assumptions C163_zero_acceleration_refuted.
Example C163_zero_met : 0 < norm 1 (vsub (corner 1 0) (corner 0 0)) /\ (exists i, (i < 1)%nat /\ corner 1 0 i <> corner 0 0 i /\ (fun _ : nat => 0) i = 0).
Proof. rewrite (line_norm 1) by lra. split; [lra|]. exists 0%nat. split; [lia|]. cbn [corner]. split; [lra|reflexivity]. Qed.

(** A joint that has to move but may have no speed: it is made to move all the same, and the times are not numbers. *)
Theorem C163_zero_velocity_refuted : exists n ws dev p vmax amax dt fuel steps,
  good_waypoints n ws dev /\ path_make n ws dev = Some p /\ path_plan n p vmax amax dt fuel = Ok steps /\ vmax 0%nat = 0 /\ In (5 / 8, 1 / 4) steps /\ timing steps = None.
Proof.
  pose proof dbl_max_big as DM. set (L := 3 / 4). assert (HL : 0 < L) by (unfold L; lra).
  assert (VM : forall s, vel_max 1 (tangent_of 1 (line L)) (fun _ => 0) s = 0).
  { intros s. unfold vel_max. cbn [seq fold_left]. rewrite line_tg by exact HL. rdec. rewrite Rabs_R1. replace (0 / 1) with 0 by field. apply Rmin_right. lra. }
  assert (PP : path_plan 1 (line L) (fun _ => 0) (fun _ => 1) 1 10 = Ok [(0, 0); (1 / 2, 0); (5 / 8, 1 / 4); (3 / 4, 0)]).
  { unfold path_plan, plan. rewrite !line_acc by exact HL.
    assert (F : forward 1 (tangent_of 1 (line L)) (curvature_of 1 (line L)) (p_len (line L)) (p_switch (line L)) (fun _ => 0) (fun _ => 1) 1 10 [(0, 0)] 1 = Ok ([(1, 1); (1 / 2, 0); (0, 0)], true)).
    { unfold forward. cbn [forward_loop p_switch line].
      assert (R1 : forward_round 1 (tangent_of 1 (line L)) (curvature_of 1 (line L)) (p_len (line L)) (fun _ => 0) (fun _ => 1) 1 10 [(0, 0)] [] 0 0 1 = Ok (inr ([(1 / 2, 0); (0, 0)], [], 1 / 2, 0, 1))).
      { unfold forward_round. cbn [skip_disc]. cbv zeta. replace (0 + 1 * 1) with 1 by ring. replace (0 + 1 * / 2 * (0 + 1)) with (1 / 2) by field. cbn [p_len line].
        rewrite (proj2 (Rltb_false L (1 / 2))) by (unfold L; lra). rewrite (proj2 (Rltb_false 1 0)) by lra. rewrite VM. rewrite (proj2 (Rltb_true 0 1)) by lra.
        assert (FO : follows 1 (tangent_of 1 (line L)) (curvature_of 1 (line L)) (fun _ => 0) (fun _ => 1) 0 = true).
        { unfold follows, phase_slope, vel_max_deriv. rewrite VM, line_acc by exact HL. unfold ediv. rewrite (proj2 (Reqb_true 0 0)) by reflexivity. rewrite (proj2 (Rltb_false 0 (-1))) by lra. rewrite (proj2 (Rltb_true (-1) 0)) by lra.
          assert (AC : active 1 (tangent_of 1 (line L)) (fun _ => 0) 0 = 0%nat). { unfold active. cbn [seq fold_left]. destruct (Reqb _ 0); [reflexivity|]. cbn [fst]. destruct (Rltb _ _); reflexivity. }
          rewrite AC, line_tg by exact HL. rewrite Rabs_R1. rewrite (proj2 (Reqb_false (1 * 1) 0)) by lra. reflexivity. }
        rewrite FO. cbn [andb].
        assert (OV : over 1 (tangent_of 1 (line L)) (curvature_of 1 (line L)) (fun _ => 0) (fun _ => 1) (1 / 2) 0 = false).
        { unfold over. rewrite VM. unfold acc_max_vel. cbn [seq fold_left Nat.sub]. rewrite line_tg by exact HL. rdec. reflexivity. }
        rewrite OV, line_acc by exact HL. reflexivity. }
      rewrite R1. cbn [obind]. rewrite (fr_end _ _ _ _ _ _ _ _ _ _ _ _ _ 1 1); [reflexivity|reflexivity|lra|lra|cbn [p_len line]; unfold L; lra]. }
    assert (B : backward 1 (tangent_of 1 (line L)) (curvature_of 1 (line L)) (fun _ => 1) 1 10 [(1, 1); (1 / 2, 0); (0, 0)] (p_len (line L)) 0 (-1) = Ok [(3 / 4, 0); (5 / 8, 1 / 4); (1 / 2, 0); (0, 0)]).
    { unfold backward. cbn [fst snd p_len line]. rewrite (proj2 (Rltb_false L (1 / 2))) by (unfold L; lra). apply (bl_hit _ _ _ _ _ _ _ _ _ _ _ _ (1 / 4) 1); cbn [fst snd]; unfold L.
      - lra.
      - left; discriminate.
      - lra.
      - lra.
      - lra.
      - unfold quot. rewrite (proj2 (Reqb_false (3 / 4 - 1 / 4) 0)) by lra. unfold intersection, quot. cbn [fst snd]. rewrite (proj2 (Reqb_false (1 - 1 / 2) 0)) by lra.
        assert (E1 : (0 - 1) / (3 / 4 - 1 / 4) = -2) by field. assert (E2 : (1 - 0) / (1 - 1 / 2) = 2) by field. rewrite E1, E2. rdec. do 2 f_equal; field.
      - rewrite Rmax_left by lra. unfold tol. lra.
      - rewrite Rmin_right by lra. unfold tol. lra. }
    cbn [plan_loop]. rewrite F. cbn [obind]. rewrite B. reflexivity. }
  exists 1%nat, (line_ws L), 0, (line L), (fun _ => 0), (fun _ => 1), 1, 10%nat. eexists. split; [apply line_good; unfold L, tol; lra|]. split; [apply line_make, HL|]. split; [exact PP|]. split; [reflexivity|].
  split; [cbn; auto|]. unfold timing. cbn [timing_from ts_pos ts_vel ts_time]. unfold quot. rewrite (proj2 (Reqb_true ((0 + 0) / 2) 0)) by field. reflexivity.
Qed.
Print Assumptions C163_zero_velocity_refuted.
