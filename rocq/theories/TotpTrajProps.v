(** Properties of the time-optimal trajectory (time_optimal_trajectory_parametrization.cpp 218-650): C81 to C85. *)
From Coq Require Import Reals Lra Psatz.
From Verif Require Import Base MathModel TotpModel TotpVec TotpPath TotpLookup TotpRoute TotpSmooth TotpProps TotpTrajModel TotpLimitProps TotpTraj.
Open Scope R_scope.

(** The times of the steps never decrease, and the last interval is not empty. *)
Definition ordered (l : list tstep) : Prop :=
  (forall l1 a b l2, l = l1 ++ a :: b :: l2 -> ts_time a <= ts_time b) /\ (forall l1 a b, l = l1 ++ [a; b] -> ts_time a < ts_time b).

Lemma nth_split_two {A} (l : list A) k a b : nth_error l k = Some a -> nth_error l (S k) = Some b -> exists l1 l2, l = l1 ++ a :: b :: l2.
Proof.
  revert k. induction l as [|x l IH]; intros [|k] H1 H2; try discriminate.
  - cbn in H1, H2. injection H1 as ->. destruct l as [|y l]; [discriminate|]. injection H2 as ->. exists [], l. reflexivity.
  - cbn [nth_error] in H1. change (nth_error l (S k) = Some b) in H2. destruct (IH k H1 H2) as (l1 & l2 & ->). exists (x :: l1), l2. reflexivity.
Qed.
Lemma ordered_nth l : ordered l -> forall i j a b, (i <= j)%nat -> nth_error l i = Some a -> nth_error l j = Some b -> ts_time a <= ts_time b.
Proof.
  intros [I _]. induction l as [|x l IH]; intros i j a b L Ha Hb; [destruct i; discriminate|].
  assert (I' : forall l1 a b l2, l = l1 ++ a :: b :: l2 -> ts_time a <= ts_time b) by (intros l1 u v l2 E; apply (I (x :: l1) u v l2); rewrite E; reflexivity).
  destruct j as [|j]; [replace i with 0%nat in Ha by lia; rewrite Ha in Hb; injection Hb as ->; lra|]. cbn [nth_error] in Hb. destruct i as [|i].
  - cbn [nth_error] in Ha. injection Ha as ->. destruct l as [|y l]; [destruct j; discriminate|].
    apply Rle_trans with (ts_time y); [exact (I [] a y l eq_refl)|]. apply (IH I' 0%nat j y b); [lia|reflexivity|exact Hb].
  - apply (IH I' i j a b); [lia|exact Ha|exact Hb].
Qed.
Lemma ordered_last l k a b : ordered l -> nth_error l k = Some a -> nth_error l (S k) = Some b -> S k = pred (length l) -> ts_time a < ts_time b.
Proof.
  intros [_ I] Ha Hb L. pose proof (nth_error_Some l (S k)) as NS.
  assert (LT : (S k < length l)%nat) by (apply NS; rewrite Hb; discriminate).
  assert (E : l = firstn k l ++ [a; b]).
  { rewrite <- (firstn_skipn k l) at 1. f_equal. assert (LL : length (skipn k l) = 2%nat) by (rewrite skipn_length; lia).
    assert (N0 : nth_error (skipn k l) 0 = Some a) by (rewrite <- Ha; rewrite <- (firstn_skipn k l) at 2; rewrite nth_error_app2; rewrite firstn_length; [f_equal|]; lia).
    assert (N1 : nth_error (skipn k l) 1 = Some b) by (rewrite <- Hb; rewrite <- (firstn_skipn k l) at 2; rewrite nth_error_app2; rewrite firstn_length; [f_equal|]; lia).
    destruct (skipn k l) as [|u [|v [|w m]]]; try discriminate. cbn in N0, N1. congruence. }
  apply (I (firstn k l)). exact E.
Qed.
Lemma duration_nth l : l <> [] -> exists x, nth_error l (pred (length l)) = Some x /\ ts_time x = duration l.
Proof.
  intros N. destruct (exists_last N) as (m & y & ->). exists y. unfold duration. rewrite last_last. split; [|reflexivity].
  rewrite app_length. cbn [length]. rewrite Nat.add_1_r. cbn [pred]. rewrite nth_error_app2, Nat.sub_diag by lia. reflexivity.
Qed.
Lemma nth_lt {A} (l : list A) k a : nth_error l k = Some a -> (k < length l)%nat.
Proof. intros H. apply nth_error_Some. rewrite H. discriminate. Qed.
Lemma time_le_duration l k a : ordered l -> nth_error l k = Some a -> ts_time a <= duration l.
Proof.
  intros I Ha. pose proof (nth_lt l k a Ha) as L. destruct (duration_nth l) as (x & Hx & Tx); [intros ->; cbn in L; lia|].
  rewrite <- Tx. apply (ordered_nth l I k (pred (length l))); [lia|exact Ha|exact Hx].
Qed.
Lemma seg_between l k a b t : ordered l -> nth_error l k = Some a -> nth_error l (S k) = Some b -> ts_time a <= t < ts_time b -> segment_at l t (S k).
Proof.
  intros I Ha Hb H. right. pose proof (time_le_duration l _ _ I Hb). split; [lra|]. split; [exists b; split; [exact Hb|lra]|].
  intros j y Hj Hy. assert (ts_time y <= ts_time a) by (apply (ordered_nth l I j k); [lia|exact Hy|exact Ha]). lra.
Qed.
(** The interval on which a time is found is not empty. *)
Lemma seg_positive l k a b t : ordered l -> nth_error l k = Some a -> nth_error l (S k) = Some b -> segment_at l t (S k) -> ts_time a < ts_time b.
Proof.
  intros I Ha Hb [[_ K]|(_ & (x & Hx & Tx) & B)]; [apply (ordered_last l k); assumption|].
  rewrite Hb in Hx. injection Hx as <-. pose proof (B k a ltac:(lia) Ha). lra.
Qed.

(** The path state on one interval. *)
Definition acc_of (a b : tstep) : R := 2 * (ts_pos b - ts_pos a - (ts_time b - ts_time a) * ts_vel a) / ((ts_time b - ts_time a) * (ts_time b - ts_time a)).
Definition pos_at (a b : tstep) (t : R) : R := ts_pos a + (t - ts_time a) * ts_vel a + / 2 * (t - ts_time a) * (t - ts_time a) * acc_of a b.
Definition vel_at (a b : tstep) (t : R) : R := ts_vel a + (t - ts_time a) * acc_of a b.
Lemma path_state_at l k a b t : nth_error l k = Some a -> nth_error l (S k) = Some b -> ts_time a < ts_time b ->
  path_state l (S k) t = Ok (Some (pos_at a b t, vel_at a b t)).
Proof.
  intros Ha Hb H. unfold path_state. rewrite Ha, Hb. unfold quot, Reqb. destruct (Req_EM_T _ 0) as [Z|_]; [nra|]. reflexivity.
Qed.
Lemma pos_vel_at l c k a b t : ordered l -> duration l <= dbl_max -> cache_ok l c -> nth_error l k = Some a -> nth_error l (S k) = Some b -> segment_at l t (S k) ->
  exists c', pos_vel l c t = Ok (Some (pos_at a b t, vel_at a b t), c') /\ cache_ok l c'.
Proof.
  intros I D C Ha Hb SA. assert (N : l <> []) by (intros ->; destruct k; discriminate).
  destruct (get_segment_ok l c t N D C) as (k' & c' & G & S' & C'). pose proof (segment_unique _ _ _ _ SA S') as <-.
  exists c'. split; [|exact C']. unfold pos_vel. rewrite G. cbn [obind]. rewrite (path_state_at l k a b t Ha Hb); [reflexivity|].
  apply (seg_positive l k a b t I Ha Hb SA).
Qed.
(** Every time from 0 on is on some interval. *)
Lemma interval_of l t : ordered l -> (2 <= length l)%nat -> (exists x, hd_error l = Some x /\ ts_time x <= t) ->
  exists k a b, nth_error l k = Some a /\ nth_error l (S k) = Some b /\ segment_at l t (S k) /\
    ((ts_time a <= t < ts_time b) \/ (duration l <= t /\ S k = pred (length l) /\ ts_time b = duration l)).
Proof.
  intros I L (x & Hx & Tx). assert (N : l <> []) by (intros ->; cbn in L; lia).
  destruct (Rle_dec (duration l) t) as [D|D].
  - destruct (duration_nth l N) as (b & Hb & Tb). exists (pred (pred (length l))).
    replace (S (pred (pred (length l)))) with (pred (length l)) by lia.
    destruct (nth_error l (pred (pred (length l)))) as [a|] eqn:Ha; [|apply nth_error_None in Ha; lia].
    exists a, b. split; [reflexivity|]. split; [exact Hb|]. split; [left; auto|]. right. auto.
  - apply Rnot_le_lt in D. destruct (advance_spec t l 0) as (j & b & _ & Hb & Tb & B).
    { destruct (last_in_time l N) as (z & Hz & Tz). exists z. split; [exact Hz|lra]. }
    destruct j as [|k].
    + exfalso. destruct l as [|y l]; [discriminate|]. cbn in Hx, Hb. injection Hx as ->. injection Hb as ->. lra.
    + destruct (nth_error l k) as [a|] eqn:Ha; [|apply nth_error_None in Ha; pose proof (nth_lt l (S k) b Hb); lia].
      exists k, a, b. pose proof (B k a ltac:(lia) Ha). split; [exact Ha|]. split; [exact Hb|]. split; [apply (seg_between l k a b); auto|]. left. lra.
Qed.

Lemma forall2_nth {A B} (P : A -> B -> Prop) l m k x : Forall2 P l m -> nth_error l k = Some x -> exists y, nth_error m k = Some y /\ P x y.
Proof. intros F. revert k. induction F as [|a b l m Hab F IH]; intros [|k] H; try discriminate; cbn in *; [injection H as ->; eauto|apply IH, H]. Qed.
Lemma forall2_len {A B} (P : A -> B -> Prop) l m : Forall2 P l m -> length l = length m.
Proof. intros F. induction F; cbn; congruence. Qed.

(** What a planned trajectory looks like. *)
Record planned (p : path) (ts : list tstep) : Prop := {
  pl_two : (2 <= length ts)%nat;
  pl_first : exists x, hd_error ts = Some x /\ ts_pos x = 0 /\ ts_vel x = 0 /\ ts_time x = 0;
  pl_last : exists x, nth_error ts (pred (length ts)) = Some x /\ ts_pos x = p_len p /\ ts_vel x = 0 /\ ts_time x = duration ts;
  pl_ok : forall l1 a b l2, ts = l1 ++ a :: b :: l2 -> interval_ok a b }.
Lemma plan_planned n p vmax amax dt fuel steps ts : path_plan n p vmax amax dt fuel = Ok steps -> timing steps = Some ts -> planned p ts.
Proof.
  intros P T. apply plan_ends in P. destruct P as (m & ->). apply timing_spec in T. destruct T as (F & (x & ts' & E & Tx) & I).
  pose proof (forall2_len _ _ _ F) as L. cbn [length] in L. rewrite app_length in L. cbn [length] in L.
  split; [lia| | |exact I].
  - exists x. subst ts. cbn [hd_error]. inversion F as [|? ? ? ? [S1 S2]]; subst. cbn [fst snd] in *. auto.
  - assert (N : ts <> []) by (rewrite E; discriminate). destruct (duration_nth ts N) as (y & Hy & Ty). exists y. split; [exact Hy|].
    destruct (forall2_nth same_step _ _ _ _ F Hy) as (s & Hs & S1 & S2). rewrite L in Hs.
    change ((0, 0) :: m ++ [(p_len p, 0)]) with (((0, 0) :: m) ++ [(p_len p, 0)]) in Hs. rewrite nth_error_app2 in Hs by (cbn [length]; lia).
    match type of Hs with nth_error _ ?k = _ => replace k with 0%nat in Hs by (cbn [length]; lia) end. injection Hs as <-. cbn [fst snd] in *. auto.
Qed.
Lemma pos_at_start a b : pos_at a b (ts_time a) = ts_pos a /\ vel_at a b (ts_time a) = ts_vel a.
Proof. unfold pos_at, vel_at. split; ring. Qed.
Lemma pos_at_end a b : ts_time a < ts_time b -> interval_ok a b -> pos_at a b (ts_time b) = ts_pos b /\ vel_at a b (ts_time b) = ts_vel b.
Proof.
  intros L I. unfold interval_ok in I. unfold pos_at, vel_at, acc_of. set (d := ts_time b - ts_time a) in *. assert (Hd : 0 < d) by (unfold d; lra). split; [field; lra|].
  assert (E : ts_pos b - ts_pos a = d * (ts_vel b + ts_vel a) / 2) by lra. rewrite E. field. lra.
Qed.

(** Steps at the same time are at the same place. *)
Lemma same_time_place p l : planned p l -> ordered l -> forall j i a b, (i <= j)%nat -> nth_error l i = Some a -> nth_error l j = Some b ->
  ts_time a = ts_time b -> ts_pos a = ts_pos b.
Proof.
  intros PL I. induction j as [|j IH]; intros i a b L Ha Hb T.
  - replace i with 0%nat in Ha by lia. congruence.
  - destruct (Nat.eq_dec i (S j)) as [->|N]; [congruence|].
    destruct (nth_error l j) as [m|] eqn:Hm; [|apply nth_error_None in Hm; pose proof (nth_lt l (S j) b Hb); lia].
    pose proof (ordered_nth l I i j a m ltac:(lia) Ha Hm). pose proof (ordered_nth l I j (S j) m b ltac:(lia) Hm Hb).
    rewrite (IH i a m ltac:(lia) Ha eq_refl ltac:(lra)). destruct (nth_split_two l j m b Hm Hb) as (l1 & l2 & Es). pose proof (pl_ok _ _ PL l1 m b l2 Es) as IO.
    unfold interval_ok in IO. replace (ts_time b) with (ts_time m) in IO by lra. lra.
Qed.

(** ** C81: at the time of every step the robot is where the step says, in particular at rest at the two ends *)
(** A step whose speed is that of every other step at the same time. *)
Definition agreed (ts : list tstep) (x : tstep) : Prop := forall y, In y ts -> ts_time y = ts_time x -> ts_vel y = ts_vel x.
Lemma state_at_step p ts x : planned p ts -> ordered ts -> duration ts <= dbl_max -> In x ts -> agreed ts x ->
  exists c', pos_vel ts fresh (ts_time x) = Ok (Some (ts_pos x, ts_vel x), c').
Proof.
  intros PL I D Hin AG. assert (Hx := Hin). apply In_nth_error in Hx. destruct Hx as (k & Hk).
  assert (Z : 0 <= ts_time x). { destruct (pl_first _ _ PL) as (z & Hz & _ & _ & Tz). rewrite <- Tz. apply (ordered_nth ts I 0 k); [lia|destruct ts; [discriminate|exact Hz]|exact Hk]. }
  destruct (interval_of ts (ts_time x) I (pl_two _ _ PL)) as (j & a & b & Ha & Hb & SA & Q).
  { destruct (pl_first _ _ PL) as (z & Hz & _ & _ & Tz). exists z. split; [exact Hz|lra]. }
  destruct (pos_vel_at ts fresh j a b (ts_time x) I D (or_introl eq_refl) Ha Hb SA) as (c' & PV & _). exists c'. rewrite PV.
  pose proof (seg_positive ts j a b _ I Ha Hb SA) as Lt.
  destruct Q as [Q|(Q1 & Q2 & Q3)].
  - assert (Kj : (k <= j)%nat) by (destruct (Nat.le_gt_cases k j) as [|G]; [assumption|]; pose proof (ordered_nth ts I (S j) k b x ltac:(lia) Hb Hk); lra).
    pose proof (ordered_nth ts I k j x a Kj Hk Ha). assert (T : ts_time x = ts_time a) by lra.
    assert (E1 : ts_pos x = ts_pos a) by (apply (same_time_place p ts PL I j k); assumption).
    assert (E2 : ts_vel a = ts_vel x) by (apply AG; [eapply nth_error_In, Ha|lra]).
    rewrite T. destruct (pos_at_start a b) as [-> ->]. rewrite E1, E2. reflexivity.
  - pose proof (time_le_duration ts k x I Hk) as TD. assert (T : ts_time x = ts_time b) by lra.
    assert (Kj : k = S j). { pose proof (nth_lt ts k x Hk). destruct (Nat.le_gt_cases k j) as [G|]; [|lia]. pose proof (ordered_nth ts I k j x a G Hk Ha). lra. }
    subst k. rewrite Hb in Hk. injection Hk as <-. destruct (nth_split_two ts j a b Ha Hb) as (l1 & l2 & Es). pose proof (pl_ok _ _ PL l1 a b l2 Es) as IO.
    destruct (pos_at_end a b Lt IO) as [-> ->]. reflexivity.
Qed.
Theorem C81_trajectory_steps n ws dev p vmax amax dt fuel steps ts :
  good_waypoints n ws dev -> path_make n ws dev = Some p -> path_plan n p vmax amax dt fuel = Ok steps ->
  timing steps = Some ts -> ordered ts -> duration ts <= dbl_max ->
  forall x, In x ts -> agreed ts x -> exists q t c, position_velocity n p ts fresh (ts_time x) = Ok (Some (q, fun i => t i * ts_vel x), c) /\
    path_config n p (ts_pos x) = Ok (Some q) /\ path_tangent n p (ts_pos x) = Ok (Some t).
Proof.
  intros G E P T I D x Hx AG. pose proof (plan_planned _ _ _ _ _ _ _ _ P T) as PL.
  destruct (C77_derivatives n ws dev p G E) as (q & t & c & GET & _).
  destruct (state_at_step p ts x PL I D Hx AG) as (c' & PV).
  exists (q (ts_pos x)), (t (ts_pos x)), c'. destruct (GET (ts_pos x)) as (C & TG & _). split; [|auto].
  unfold position_velocity. rewrite PV. cbn [obind]. rewrite C, TG. reflexivity.
Qed.
Theorem C81_trajectory_ends_partial n ws dev p vmax amax dt fuel steps ts :
  good_waypoints n ws dev -> path_make n ws dev = Some p -> path_plan n p vmax amax dt fuel = Ok steps ->
  timing steps = Some ts -> ordered ts -> duration ts <= dbl_max -> (forall y, In y ts -> ts_time y = 0 -> ts_vel y = 0) ->
  (exists q v c, position_velocity n p ts fresh 0 = Ok (Some (q, v), c) /\ veq n q (hd vzero ws) /\ veq n v vzero) /\
  (exists q v c, position_velocity n p ts fresh (duration ts) = Ok (Some (q, v), c) /\ veq n q (last ws vzero) /\ veq n v vzero).
Proof.
  intros G E P T I D ZERO. pose proof (plan_planned _ _ _ _ _ _ _ _ P T) as PL.
  destruct (C75_path_ends_partial n ws dev G) as (p' & E' & _ & ST & EN). rewrite E in E'. injection E' as <-.
  destruct (pl_first _ _ PL) as (x & Hx & Px & Vx & Tx). destruct (pl_last _ _ PL) as (y & Hy & Py & Vy & Ty). split.
  - assert (Hin : In x ts) by (destruct ts; [discriminate|injection Hx as ->; left; reflexivity]).
    destruct (C81_trajectory_steps n ws dev p vmax amax dt fuel steps ts G E P T I D x Hin ltac:(intros u Hu Tu; rewrite Vx; apply ZERO; [exact Hu|lra])) as (q & t & c & Q & C & _). rewrite Tx in Q. rewrite Px in C.
    eexists _, _, c. split; [exact Q|]. destruct (ST 0 ltac:(lra)) as (q' & C' & V). rewrite C in C'. injection C' as <-. split; [exact V|].
    intros i _. rewrite Vx. unfold vzero. ring.
  - assert (Hin : In y ts) by (eapply nth_error_In, Hy).
    assert (AG : agreed ts y).
    { intros u Hu Tu. apply In_nth_error in Hu. destruct Hu as (k & Hk). pose proof (nth_lt ts k u Hk) as L. pose proof (pl_two _ _ PL) as L2.
      destruct (Nat.eq_dec k (pred (length ts))) as [->|N]; [congruence|]. exfalso.
      destruct (nth_error ts (pred (pred (length ts)))) as [a|] eqn:Ha; [|apply nth_error_None in Ha; lia].
      replace (pred (length ts)) with (S (pred (pred (length ts)))) in Hy by lia.
      pose proof (ordered_last ts (pred (pred (length ts))) a y I Ha Hy ltac:(lia)). pose proof (ordered_nth ts I k (pred (pred (length ts))) u a ltac:(lia) Hk Ha). lra. }
    destruct (C81_trajectory_steps n ws dev p vmax amax dt fuel steps ts G E P T I D y Hin AG) as (q & t & c & Q & C & _). rewrite Ty in Q. rewrite Py in C.
    eexists _, _, c. split; [exact Q|]. destruct (EN (p_len p) ltac:(lra)) as (q' & C' & V). rewrite C in C'. injection C' as <-. split; [exact V|].
    intros i _. rewrite Vy. unfold vzero. ring.
Qed.
Print Assumptions C81_trajectory_steps.
Print Assumptions C81_trajectory_ends_partial.

(** ** C83: answers do not depend on the queries made before *)
Fixpoint run_queries (n : nat) (p : path) (ts : list tstep) (c : cache) (h : list R) : outcome cache :=
  match h with
  | [] => Ok c
  | t :: h' => let! (_, c') := position_velocity n p ts c t in run_queries n p ts c' h'
  end.
Theorem C83_query_history n ws dev p vmax amax dt fuel steps ts h t :
  good_waypoints n ws dev -> path_make n ws dev = Some p -> path_plan n p vmax amax dt fuel = Ok steps ->
  timing steps = Some ts -> ordered ts -> duration ts <= dbl_max -> Forall (fun x => 0 <= x) h -> 0 <= t ->
  exists c q v c1 c2, run_queries n p ts fresh h = Ok c /\
    position_velocity n p ts c t = Ok (Some (q, v), c1) /\ position_velocity n p ts fresh t = Ok (Some (q, v), c2).
Proof.
  intros G E P T I D Hh Ht. pose proof (plan_planned _ _ _ _ _ _ _ _ P T) as PL.
  destruct (C77_derivatives n ws dev p G E) as (q & tg & cu & GET & _).
  assert (ONE : forall t, 0 <= t -> exists s v, forall c, cache_ok ts c -> exists c', position_velocity n p ts c t = Ok (Some (q s, fun i => tg s i * v), c') /\ cache_ok ts c').
  { intros u Hu. destruct (interval_of ts u I (pl_two _ _ PL)) as (k & a & b & Ha & Hb & SA & _).
    { destruct (pl_first _ _ PL) as (x & Hx & _ & _ & Tx). exists x. split; [exact Hx|lra]. }
    exists (pos_at a b u), (vel_at a b u). intros c C. destruct (pos_vel_at ts c k a b u I D C Ha Hb SA) as (c' & PV & C'). exists c'. split; [|exact C'].
    unfold position_velocity. rewrite PV. cbn [obind]. destruct (GET (pos_at a b u)) as (C1 & T1 & _). rewrite C1, T1. reflexivity. }
  assert (RUN : forall c, cache_ok ts c -> exists c', run_queries n p ts c h = Ok c' /\ cache_ok ts c').
  { clear Ht. induction Hh as [|u h Hu Hh IH]; intros c C; cbn [run_queries]; [eauto|].
    destruct (ONE u Hu) as (s & v & ON). destruct (ON c C) as (c' & PV & C'). rewrite PV. cbn [obind]. apply IH, C'. }
  destruct (RUN fresh (or_introl eq_refl)) as (c & R1 & C). destruct (ONE t Ht) as (s & v & ON).
  destruct (ON c C) as (c1 & Q1 & _). destruct (ON fresh (or_introl eq_refl)) as (c2 & Q2 & _).
  exists c, (q s), (fun i => tg s i * v), c1, c2. auto.
Qed.
Print Assumptions C83_query_history.

(** ** C85: the velocity is the rate of change of the position *)
Theorem C85_velocity n ws dev p vmax amax dt fuel steps ts :
  good_waypoints n ws dev -> path_make n ws dev = Some p -> path_plan n p vmax amax dt fuel = Ok steps ->
  timing steps = Some ts -> ordered ts -> duration ts <= dbl_max ->
  exists Q V : R -> vec,
    (forall t, 0 <= t -> exists c, position_velocity n p ts fresh t = Ok (Some (Q t, V t), c)) /\
    (forall t s v c, 0 < t < duration ts -> (forall x, In x ts -> ts_time x <> t) -> pos_vel ts fresh t = Ok (Some (s, v), c) ->
       0 < s < p_len p -> ~ In (s, true) (p_switch p) ->
       forall i, derivable_pt_lim (fun x => Q x i) t (V t i)).
Proof.
  intros G E P T I D. pose proof (plan_planned _ _ _ _ _ _ _ _ P T) as PL.
  destruct (C77_derivatives n ws dev p G E) as (q & tg & cu & GET & DER & _).
  set (st := fun t => match pos_vel ts fresh t with Ok (Some sv, _) => sv | _ => (0, 0) end).
  exists (fun t => q (fst (st t))), (fun t => fun i => tg (fst (st t)) i * snd (st t)).
  assert (ST : forall t k a b, nth_error ts k = Some a -> nth_error ts (S k) = Some b -> segment_at ts t (S k) -> st t = (pos_at a b t, vel_at a b t)).
  { intros t k a b Ha Hb SA. destruct (pos_vel_at ts fresh k a b t I D (or_introl eq_refl) Ha Hb SA) as (c & PV & _). unfold st. rewrite PV. reflexivity. }
  assert (FIND : forall t, 0 <= t -> exists k a b, nth_error ts k = Some a /\ nth_error ts (S k) = Some b /\ segment_at ts t (S k) /\
    ((ts_time a <= t < ts_time b) \/ (duration ts <= t /\ S k = pred (length ts) /\ ts_time b = duration ts))).
  { intros t Ht. apply interval_of; [exact I|apply (pl_two _ _ PL)|]. destruct (pl_first _ _ PL) as (x & Hx & _ & _ & Tx). exists x. split; [exact Hx|lra]. }
  split.
  - intros t Ht. destruct (FIND t Ht) as (k & a & b & Ha & Hb & SA & _).
    destruct (pos_vel_at ts fresh k a b t I D (or_introl eq_refl) Ha Hb SA) as (c & PV & _). exists c.
    unfold position_velocity. rewrite PV. cbn [obind]. destruct (GET (pos_at a b t)) as (C1 & T1 & _). rewrite C1, T1. rewrite (ST t k a b Ha Hb SA). reflexivity.
  - intros t s v c Ht NT PV Hs NI i. destruct (FIND t ltac:(lra)) as (k & a & b & Ha & Hb & SA & [Hab|Hd]); [|lra].
    assert (Sv : st t = (s, v)) by (unfold st; rewrite PV; reflexivity). rewrite (ST t k a b Ha Hb SA) in Sv. injection Sv as Es Ev.
    assert (Na : ts_time a <> t) by (apply NT; eapply nth_error_In, Ha).
    rewrite (ST t k a b Ha Hb SA). cbn [fst snd].
    assert (RP : 0 < Rmin (t - ts_time a) (ts_time b - t)) by (apply Rmin_glb_lt; lra).
    apply (derive_local _ (fun x => q (pos_at a b x) i) t _ _ RP).
    + intros u Hu. assert (U1 := Rlt_le_trans _ _ _ Hu (Rmin_l _ _)). assert (U2 := Rlt_le_trans _ _ _ Hu (Rmin_r _ _)). apply Rabs_def2 in U1, U2.
      rewrite (ST u k a b Ha Hb); [reflexivity|]. apply (seg_between ts k a b); auto. lra.
    + apply (derivable_pt_lim_comp (pos_at a b) (fun y => q y i)).
      * unfold pos_at, vel_at. set (ta := ts_time a). set (ac := acc_of a b).
        assert (D1 : derivable_pt_lim (fun x => x - ta) t 1) by (apply (derive_lin _ (- ta)); intros; ring).
        assert (D2 := derivable_pt_lim_mult _ _ _ _ _ D1 D1).
        assert (D3 := derivable_pt_lim_plus _ _ _ _ _ (derivable_pt_lim_const (ts_pos a) t) (derivable_pt_lim_scal _ (ts_vel a) _ _ D1)).
        assert (D4 := derivable_pt_lim_plus _ _ _ _ _ D3 (derivable_pt_lim_scal _ (/ 2 * ac) _ _ D2)).
        match type of D4 with derivable_pt_lim _ _ ?d => replace (ts_vel a + (t - ta) * ac) with d by (field) end.
        eapply (derive_local _ _ t _ 1 Rlt_0_1); [|exact D4]. intros u _. unfold plus_fct, mult_real_fct, mult_fct, fct_cte. field.
      * rewrite Es. apply (DER s i Hs NI).
Qed.
Print Assumptions C85_velocity.
