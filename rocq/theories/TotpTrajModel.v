(** Model of class Trajectory of src/arc_utilities/time_optimal_trajectory_parametrization.cpp (218-650) over the real numbers:
    doubles are reals, so rounding and overflow are not modelled; a division by zero is modelled where the code can reach
    one, with zero taken as +0.  The entries of max_velocity and max_acceleration are taken to be nonnegative (a negative one
    makes a quotient by zero minus infinity and a square root NaN, which is not modelled).
    The path enters through its getters [tg] (GetTangent) and [cv] (GetCurvature), which are total for a path without
    segments of length zero, its length and its switching points; TotpTrajProps.v instantiates them with TotpModel.v. *)
From Coq Require Import Reals Lra.
From Verif Require Import Base MathModel TotpModel.
Open Scope R_scope.

(** std::numeric_limits<double>::max(). *)
Definition dbl_max : R := IZR (2 ^ 1024 - 2 ^ 971).
(** A double that may be infinite or NaN. *)
Inductive ext := Fin (r : R) | PInf | NInf | NaN.
Definition ediv (a b : R) : ext :=
  if Reqb b 0 then (if Rltb 0 a then PInf else if Rltb a 0 then NInf else NaN) else Fin (a / b).
Definition elt (x y : ext) : bool :=
  match x, y with
  | NaN, _ | _, NaN => false
  | Fin a, Fin b => Rltb a b
  | NInf, NInf | PInf, PInf => false
  | NInf, _ | _, PInf => true
  | _, _ => false
  end.
Definition ele (x y : ext) : bool :=
  match x, y with
  | NaN, _ | _, NaN => false
  | Fin a, Fin b => Rleb a b
  | NInf, _ | _, PInf => true
  | _, _ => false
  end.
(** A double that may be infinity ([None]), from std::min with infinity as the start. *)
Definition omin (m : option R) (x : R) : option R := match m with None => Some x | Some y => Some (Rmin y x) end.
Definition of_opt (m : option R) : ext := match m with None => PInf | Some x => Fin x end.

Section Trajectory.
Variables (n : nat) (tg cv : R -> vec) (len : R) (sw : list (R * bool)) (vmax amax : vec) (dt : R).

(** A TrajectoryStep without its time: path_pos_ and path_vel_. *)
Definition step : Type := R * R.

(** 545-558: GetMinMaxPathAcceleration. *)
Definition min_max_acc (pos vel : R) (mx : bool) : R :=
  let f := if mx then 1 else -1 in
  f * fold_left (fun m i => if Reqb (tg pos i) 0 then m
        else Rmin m (amax i / Rabs (tg pos i) - f * cv pos i * vel * vel / tg pos i)) (seq 0 n) dbl_max.
(** 560-562: GetMinMaxPhaseSlope. *)
Definition phase_slope (pos vel : R) (mx : bool) : ext := ediv (min_max_acc pos vel mx) vel.
(** 564-586: GetAccelerationMaxPathVelocity; [None] is infinity. *)
Definition acc_max_vel (pos : R) : option R :=
  let t := tg pos in let c := cv pos in
  fold_left (fun m i =>
    if Reqb (t i) 0 then (if Reqb (c i) 0 then m else omin m (sqrt (amax i / Rabs (c i))))
    else fold_left (fun m j =>
           if Reqb (t j) 0 then m
           else let a := c i / t i - c j / t j in
                if Reqb a 0 then m else omin m (sqrt ((amax i / Rabs (t i) + amax j / Rabs (t j)) / Rabs a)))
         (seq (S i) (n - S i)) m) (seq 0 n) None.
(** 588-595: GetVelocityMaxPathVelocity; a quotient by zero is infinity or NaN, which std::min does not take. *)
Definition vel_max (pos : R) : R :=
  fold_left (fun m i => if Reqb (tg pos i) 0 then m else Rmin m (vmax i / Rabs (tg pos i))) (seq 0 n) dbl_max.
(** 597-600: GetAccelerationMaxPathVelocityDeriv. *)
Definition acc_max_deriv (pos : R) : ext :=
  match acc_max_vel (pos + tol), acc_max_vel (pos - tol) with
  | Some a, Some b => Fin ((a - b) / (2 * tol))
  | None, Some _ => PInf
  | Some _, None => NInf
  | None, None => NaN
  end.
(** 602-615: GetVelocityMaxPathVelocityDeriv; the pair is max_path_velocity and active_constraint. *)
Definition active (pos : R) : nat :=
  snd (fold_left (fun (m : R * nat) i =>
         if Reqb (tg pos i) 0 then m
         else let x := vmax i / Rabs (tg pos i) in if Rltb x (fst m) then (x, i) else m) (seq 0 n) (dbl_max, 0%nat)).
Definition vel_max_deriv (pos : R) : ext :=
  let k := active pos in ediv (- (vmax k * cv pos k)) (tg pos k * Rabs (tg pos k)).

(** The tests that recur: above the acceleration limit, above one of the limits (455, 471). *)
Definition above (vel : R) (m : option R) : bool := match m with None => false | Some x => Rltb x vel end.
Definition over (pos vel : R) : bool := above vel (acc_max_vel pos) || Rltb (vel_max pos) vel.
(** 449-450, 467-468: the trajectory can follow the velocity limit at [pos]. *)
Definition follows (pos : R) : bool := ele (phase_slope pos (vel_max pos) false) (vel_max_deriv pos).

(** 347-383: GetNextAccelerationSwitchingPoint after [cur]; the list is the part of the switching points not yet passed.  The
    result is the step and the two accelerations.  When the velocity limit is infinite at the point neither test can hold
    (infinity minus anything is not below a slope, and NaN compares false), so the search goes on. *)
Fixpoint next_acc (l : list (R * bool)) (cur : R) : option (step * R * R) :=
  match l with
  | [] => None
  | (s, d) :: l' =>
      if Rleb s cur then next_acc l' cur
      else if Rltb (len - tol) s then None
      else if d then
        let b := acc_max_vel (s - tol) in let a := acc_max_vel (s + tol) in
        match (match b, a with Some x, Some y => Some (Rmin x y) | Some x, None => Some x | None, y => y end) with
        | None => next_acc l' s
        | Some v =>
            if (elt (of_opt a) (of_opt b) || elt (acc_max_deriv (s - 2 * tol)) (phase_slope (s - tol) v false)) &&
               (elt (of_opt b) (of_opt a) || elt (phase_slope (s + tol) v true) (acc_max_deriv (s + 2 * tol)))
            then Some (s, v, min_max_acc (s - tol) v false, min_max_acc (s + tol) v true)
            else next_acc l' s
        end
      else
        match acc_max_vel s with
        | None => next_acc l' s
        | Some v =>
            if elt (acc_max_deriv (s - tol)) (Fin 0) && elt (Fin 0) (acc_max_deriv (s + tol))
            then Some (s, v, 0, 0) else next_acc l' s
        end
  end.
(** 307-316: the search for a switching point on the acceleration limit that is within the velocity limit; also returns the
    position acceleration_switching_point is left at.  Each round goes on to a later switching point, so as many rounds as
    there are switching points, and one more, suffice. *)
Fixpoint acc_switch (rounds : nat) (cur : R) : R * option (step * R * R) :=
  match rounds with
  | O => (cur, None)
  | S k =>
      match next_acc sw cur with
      | None => (cur, None)
      | Some (s, v, b, a) => if Rltb (vel_max s) v then acc_switch k s else (s, Some (s, v, b, a))
      end
  end.

(** 385-419: GetNextVelocitySwitchingPoint; the loops run on fuel. *)
Fixpoint vel_scan (fuel : nat) (pos : R) (start : bool) : outcome R :=
  match fuel with
  | O => NoFuel
  | S k =>
      let pos := pos + / 1000 in
      let start := start || ele (vel_max_deriv pos) (phase_slope pos (vel_max pos) false) in
      if (negb start || elt (vel_max_deriv pos) (phase_slope pos (vel_max pos) false)) && Rltb pos len
      then vel_scan k pos start else Ok pos
  end.
Fixpoint vel_bisect (fuel : nat) (b a : R) : outcome (R * R) :=
  match fuel with
  | O => NoFuel
  | S k =>
      if Rltb (/ 1000000) (a - b) then
        let m := (b + a) / 2 in
        if elt (vel_max_deriv m) (phase_slope m (vel_max m) false) then vel_bisect k m a else vel_bisect k b m
      else Ok (b, a)
  end.
Definition next_vel (fuel : nat) (pos : R) : outcome (option (step * R * R)) :=
  let! s := vel_scan fuel (pos - / 1000) false in
  if Rleb len s then Ok None
  else let! (b, a) := vel_bisect fuel (s - / 1000) s in
       Ok (Some (a, vel_max a, min_max_acc b (vel_max b) false, min_max_acc a (vel_max a) true)).
(** 318-329: the search for a switching point on the velocity limit. *)
Fixpoint vel_switch (fuel rounds : nat) (accpos cur : R) : outcome (option (step * R * R)) :=
  match rounds with
  | O => NoFuel
  | S k =>
      let! r := next_vel fuel cur in
      match r with
      | None => Ok None
      | Some (s, v, b, a) =>
          if Rleb s accpos && (above v (acc_max_vel (s - tol)) || above v (acc_max_vel (s + tol)))
          then vel_switch fuel k accpos s else Ok (Some (s, v, b, a))
      end
  end.
(** 305-345: GetNextSwitchingPoint; [None] is "end of path reached". *)
Definition next_switch (fuel : nat) (pos : R) : outcome (option (step * R * R)) :=
  let '(accpos, acc) := acc_switch (S (length sw)) pos in
  let! vel := vel_switch fuel fuel accpos pos in
  Ok (match acc, vel with
      | None, None => None
      | Some x, None => Some x
      | None, Some y => Some y
      | Some ((s, _, _, _) as x), Some ((s', _, _, _) as y) => if Rleb s s' then Some x else Some y
      end).

(** 429-432: skip switching points that are passed or no discontinuities. *)
Fixpoint skip_disc (l : list (R * bool)) (pos : R) : list (R * bool) :=
  match l with
  | (p, d) :: l' => if Rleb p pos || negb d then skip_disc l' pos else l
  | [] => []
  end.
(** 463-479: the bisection; before, before_path_vel and after. *)
Fixpoint bisect (fuel : nat) (b bv a av : R) : outcome (R * R * R) :=
  match fuel with
  | O => NoFuel
  | S k =>
      if Rltb tol (a - b) then
        let m := / 2 * (b + a) in
        let mv := / 2 * (bv + av) in
        let mv := if Rltb (vel_max m) mv && follows b then vel_max m else mv in
        if over m mv then bisect k b bv m mv else bisect k m mv a av
      else Ok (b, bv, a)
  end.
(** 428-495: one round of the loop of IntegrateForward.  The trajectory is kept back first.  [inl]: returned, with the flag
    "end of path reached"; [inr]: the state of the next round.  Reading *next_discontinuity at the end of the list (482) is
    undefined behaviour. *)
Definition forward_round (fuel : nat) (tr : list step) (disc : list (R * bool)) (pos vel acc : R) :
  outcome ((list step * bool) + (list step * list (R * bool) * R * R * R)) :=
  let disc := skip_disc disc pos in
  let vel1 := vel + dt * acc in
  let pos1 := pos + dt * / 2 * (vel + vel1) in
  let '(pos1, vel1) :=
    match disc with
    | (d, _) :: _ => if Rltb d pos1 then (d, vel + (d - pos) * (vel1 - vel) / (pos1 - pos)) else (pos1, vel1)
    | [] => (pos1, vel1)
    end in
  if Rltb len pos1 then Ok (inl ((pos1, vel1) :: tr, true))
  else if Rltb vel1 0 then Throw RuntimeError
  else
    let vel1 := if Rltb (vel_max pos1) vel1 && follows pos then vel_max pos1 else vel1 in
    let acc1 := min_max_acc pos1 vel1 true in
    if over pos1 vel1 then
      match tr with
      | [] => UB
      | (b, bv) :: _ =>
          let! (b', bv', a) := bisect fuel b bv pos1 vel1 in
          let tr' := (b', bv') :: tr in
          if elt (of_opt (acc_max_vel a)) (Fin (vel_max a)) then
            match disc with
            | [] => UB
            | (d, _) :: _ =>
                if Rltb d a then Ok (inl (tr', false))
                else if elt (acc_max_deriv b') (phase_slope b' bv' true) then Ok (inl (tr', false))
                else Ok (inr (tr', disc, pos1, vel1, acc1))
            end
          else if elt (vel_max_deriv b') (phase_slope b' bv' false) then Ok (inl (tr', false))
          else Ok (inr (tr', disc, pos1, vel1, acc1))
      end
    else Ok (inr ((pos1, vel1) :: tr, disc, pos1, vel1, acc1)).
Fixpoint forward_loop (fuel rounds : nat) (tr : list step) (disc : list (R * bool)) (pos vel acc : R) : outcome (list step * bool) :=
  match rounds with
  | O => NoFuel
  | S k =>
      let! r := forward_round fuel tr disc pos vel acc in
      match r with
      | inl x => Ok x
      | inr (tr', disc', pos', vel', acc') => forward_loop fuel k tr' disc' pos' vel' acc'
      end
  end.
(** 422-496: IntegrateForward. *)
Definition forward (fuel : nat) (tr : list step) (acc : R) : outcome (list step * bool) :=
  match tr with
  | [] => UB
  | (pos, vel) :: _ => forward_loop fuel fuel tr sw pos vel acc
  end.

(** 528-531: intersection_path_pos and start_slope.  When one of the three quotients has a zero denominator the intersection is
    infinite or NaN and fails the test that follows: [None]. *)
Definition quot (a b : R) : option R := if Reqb b 0 then None else Some (a / b).
Definition intersection (s1 s2 : step) (pos vel : R) (slope : option R) : option (R * R) :=
  match quot (snd s2 - snd s1) (fst s2 - fst s1), slope with
  | Some m1, Some m =>
      match quot (snd s1 - vel + m * pos - m1 * fst s1) (m - m1) with
      | Some x => Some (x, snd s1 + m1 * (x - fst s1))
      | None => None
      end
  | _, _ => None
  end.
(** 512-541: the loop of IntegrateBackward.  [s1 :: before] is the start trajectory from start1 back to its beginning, [s2] is
    *start2, [tr] the new trajectory front first.  Decrementing start1 at the beginning is undefined behaviour.  The result is
    the whole trajectory, back first. *)
Fixpoint backward_loop (fuel : nat) (s1 : step) (before : list step) (s2 : step) (tr : list step) (pos vel acc : R) (slope : option R) : outcome (list step) :=
  match fuel with
  | O => NoFuel
  | S k =>
      if match before with [] => Rleb 0 pos | _ => true end then
        let check s1 before s2 tr pos vel acc slope :=
          match tr with
          | [] => UB
          | front :: _ =>
              match intersection s1 s2 pos vel slope with
              | Some (x, xv) =>
                  if Rleb (Rmax (fst s1) pos - tol) x && Rleb x (tol + Rmin (fst s2) (fst front))
                  then Ok (rev tr ++ (x, xv) :: s1 :: before)
                  else backward_loop k s1 before s2 tr pos vel acc slope
              | None => backward_loop k s1 before s2 tr pos vel acc slope
              end
          end in
        if Rleb (fst s1) pos then
          let vel1 := vel - dt * acc in
          let pos1 := pos - dt * / 2 * (vel1 + vel) in
          if Rltb vel1 0 then Throw RuntimeError
          else check s1 before s2 ((pos, vel) :: tr) pos1 vel1 (min_max_acc pos1 vel1 false) (quot (vel - vel1) (pos - pos1))
        else
          match before with
          | [] => UB
          | s0 :: before' => check s0 before' s1 tr pos vel acc slope
          end
      else Throw RuntimeError
  end.
(** 498-543: IntegrateBackward. *)
Definition backward (fuel : nat) (tr : list step) (pos vel acc : R) : outcome (list step) :=
  match tr with
  | s2 :: s1 :: before =>
      if Rltb pos (fst s1) then Throw InvalidArgument
      else backward_loop fuel s1 before s2 [] pos vel acc (Some 0)
  | _ => UB
  end.

(** 228-239, 260-271: the constructors up to the timing. *)
Fixpoint plan_loop (fuel rounds : nat) (tr : list step) (acc : R) : outcome (list step) :=
  match rounds with
  | O => NoFuel
  | S k =>
      let! (tr1, reached) := forward fuel tr acc in
      if reached : bool then Ok tr1
      else
        match tr1 with
        | [] => UB
        | (back, _) :: _ =>
            let! r := next_switch fuel back in
            match r with
            | None => Ok tr1
            | Some (s, v, b, a) => let! tr2 := backward fuel tr1 s v b in plan_loop fuel k tr2 a
            end
        end
  end.
Definition plan (fuel : nat) : outcome (list step) :=
  let! tr := plan_loop fuel fuel [(0, 0)] (min_max_acc 0 0 true) in
  let! tr' := backward fuel tr len 0 (min_max_acc len 0 false) in
  Ok (rev tr').
End Trajectory.

(** A step with its time_. *)
Record tstep := TStep { ts_pos : R; ts_vel : R; ts_time : R }.
(** 241-249, 273-281: the times.  [None]: a time is not finite (both velocities of an interval are zero). *)
Fixpoint timing_from (prev : tstep) (l : list step) : option (list tstep) :=
  match l with
  | [] => Some [prev]
  | (p, v) :: l' =>
      match quot (p - ts_pos prev) ((v + ts_vel prev) / 2) with
      | None => None
      | Some d =>
          match timing_from (TStep p v (ts_time prev + d)) l' with
          | None => None
          | Some r => Some (prev :: r)
          end
      end
  end.
Definition timing (l : list step) : option (list tstep) :=
  match l with [] => None | (p, v) :: l' => timing_from (TStep p v 0) l' end.

(** The mutable members: cached_time_ ([None] is NaN) and cached_trajectory_segment_ as an index ([None]: never assigned). *)
Record cache := Cache { c_time : option R; c_seg : option nat }.
Definition fresh : cache := Cache (Some dbl_max) None.
(** 617: Duration. *)
Definition duration (l : list tstep) : R := ts_time (last l (TStep 0 0 0)).
(** 628-630: advance from segment [k]; [l] is the list from there on; running off the list is undefined behaviour. *)
Fixpoint advance (l : list tstep) (k : nat) (t : R) : outcome nat :=
  match l with
  | [] => UB
  | s :: l' => if Rleb (ts_time s) t then advance l' (S k) t else Ok k
  end.
(** 619-634: GetTrajectorySegment; a time that is NaN is [None] and compares false. *)
Definition get_segment (l : list tstep) (c : cache) (time : option R) : outcome (nat * cache) :=
  match time with
  | Some t =>
      if Rleb (duration l) t then Ok (pred (length l), c)
      else
        let seg := match c_time c with Some ct => if Rltb t ct then Some 0%nat else c_seg c | None => c_seg c end in
        match seg with
        | None => UB
        | Some k => let! k' := advance (skipn k l) k t in Ok (k', Cache (Some t) (Some k'))
        end
  | None =>
      match c_seg c with
      | None => UB
      | Some k => match nth_error l k with None => UB | Some _ => Ok (k, Cache None (Some k)) end
      end
  end.
(** 636-649: GetPositionVelocity: the path position and velocity; the configuration is GetConfig at the first and the velocity
    GetTangent times the second.  Decrementing the iterator at the beginning is undefined behaviour.  [None]: not a number (an interval of duration zero). *)
Definition path_state (l : list tstep) (k : nat) (t : R) : outcome (option (R * R)) :=
  match k with
  | O => UB
  | S j =>
      match nth_error l j, nth_error l k with
      | Some a, Some b =>
          let d := ts_time b - ts_time a in
          Ok (match quot (2 * (ts_pos b - ts_pos a - d * ts_vel a)) (d * d) with
              | None => None
              | Some acc =>
                  let d' := t - ts_time a in
                  Some (ts_pos a + d' * ts_vel a + / 2 * d' * d' * acc, ts_vel a + d' * acc)
              end)
      | _, _ => UB
      end
  end.
Definition pos_vel (l : list tstep) (c : cache) (t : R) : outcome (option (R * R) * cache) :=
  let! (k, c') := get_segment l c (Some t) in
  let! r := path_state l k t in Ok (r, c').

(** The constructors on a path: GetTangent and GetCurvature of a path without segments of length zero return vectors of numbers. *)
Definition tangent_of (n : nat) (p : path) (s : R) : vec := match path_tangent n p s with Ok (Some v) => v | _ => vzero end.
Definition curvature_of (n : nat) (p : path) (s : R) : vec := match path_curvature n p s with Ok (Some v) => v | _ => vzero end.
Definition path_plan (n : nat) (p : path) (vmax amax : vec) (dt : R) (fuel : nat) : outcome (list step) :=
  plan n (tangent_of n p) (curvature_of n p) (p_len p) (p_switch p) vmax amax dt fuel.
(** 636-649: GetPositionVelocity; [None]: not a number. *)
Definition position_velocity (n : nat) (p : path) (l : list tstep) (c : cache) (t : R) : outcome (option (vec * vec) * cache) :=
  let! (r, c') := pos_vel l c t in
  match r with
  | None => Ok (None, c')
  | Some (s, v) =>
      let! q := path_config n p s in
      let! tg := path_tangent n p s in
      Ok (match q, tg with Some q, Some tg => Some (q, fun i => tg i * v) | _, _ => None end, c')
  end.
