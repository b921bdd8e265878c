(** Model of src/arc_utilities/path_utils.py over the real numbers: rounding, infinities and NaN are not modelled.  A point, a list or numpy
    array of [n] numbers, is a function from the index; only the entries below [n] mean anything. *)
From Coq Require Import Reals.
From Flocq Require Import Core.Raux.
From Verif Require Import PyBase MathModel TotpModel.
Open Scope R_scope.

Section Points.
  Context (n : nat).

  (** 17-18: clamp. *)
  Definition clamp (num lo hi : R) : R := Rmin (Rmax lo num) hi.
  (** 21-22: dist. *)
  Definition dist (p1 p2 : vec) : R := norm n (vsub p1 p2).
  (** sys.float_info.epsilon. *)
  Definition float_eps : R := / IZR (2 ^ 52).

  (** 25-41: closest_point_to_line_segment of the segment from [a] to [b]. *)
  Definition closest_on_segment (a b point : vec) : vec * R :=
    let v_line := vsub b a in
    if Rltb (norm n v_line) (10 * float_eps) then (a, 0)
    else
      let n_v_line : vec := fun i => v_line i / norm n v_line in
      let v_l0_point := vsub point a in
      let alpha := clamp (dot n v_l0_point n_v_line / norm n v_line) 0 1 in
      (vadd a (vscale alpha v_line), alpha).

  (** 58-65: the loop; the state is d_close, alpha_close, point_close, ind_close. *)
  Fixpoint closest_loop (a : vec) (rest : list vec) (ind : nat) (query : vec) (st : R * R * vec * nat) : R * R * vec * nat :=
    match rest with
    | [] => st
    | b :: rest' =>
        let (p, alpha) := closest_on_segment a b query in
        let d := dist p query in
        let '(d_close, _, _, _) := st in
        closest_loop b rest' (S ind) query (if Rltb d d_close then (d, alpha, p, ind) else st)
    end.
  (** 44-70: closest_point: the point, the index and the fraction. *)
  Definition closest_point (path : list vec) (query : vec) : py (vec * nat * R) :=
    match path with
    | [] => Raise IndexError                                              (* 54: path[0] *)
    | p0 :: rest =>
        let '(_, alpha, p, ind) := closest_loop p0 rest 0 query (dist p0 query, 0, p0, O) in
        if Reqb alpha 1 then Ret (p, S ind, 0) else Ret (p, ind, alpha)
    end.

  (** 73-81: densify_line.  [max_dist] is positive here: 0 makes the conversion to int fail and a negative one gives no points. *)
  Definition densify_line (start_point end_point : vec) (max_dist : R) : list vec :=
    let num_points := Z.to_nat (Zceil (dist start_point end_point / max_dist)) in
    map (fun idx => fun i => start_point i + (end_point i - start_point i) * INR (S idx) / INR num_points) (seq 0 num_points).
  (** 84-96: densify. *)
  Definition densify (path : list vec) (max_dist : R) : list vec :=
    match path with
    | [] => []
    | p0 :: rest => fold_left (fun new_path p => new_path ++ densify_line (last new_path p0) p max_dist) rest [p0]
    end.

  (** 124-146: the loop of travel_along; [fuel] bounds the number of vertices visited. *)
  Fixpoint travel_loop (fuel : nat) (path : list vec) (direction : Z) (ind : nat) (q : vec) (dist_to_go : R) (newpath : list vec) : py (list vec) :=
    match fuel with
    | O => NoEnd
    | S f =>
        if Rltb 0 dist_to_go then
          if ((direction =? 1)%Z && (ind =? length path - 1)%nat) || ((direction =? -1)%Z && (ind =? 0)%nat) then Ret newpath
          else
            let ind := Z.to_nat (Z.of_nat ind + direction) in
            match nth_error path ind with
            | None => Raise IndexError
            | Some next =>
                let dist_to_next := dist q next in
                if Rltb dist_to_go dist_to_next then
                  let motion := vsub next q in
                  let motion : vec := fun i => motion i / norm n motion in
                  Ret (newpath ++ [fun i => motion i * dist_to_go + q i])
                else travel_loop f path direction ind next (dist_to_go - dist_to_next) (newpath ++ [next])
            end
        else Ret newpath
    end.
  (** int(np.sign(x)). *)
  Definition sign (x : R) : Z := if Rltb 0 x then 1 else if Rltb x 0 then (-1) else 0.
  (** 99-146: travel_along. *)
  Definition travel_along (path : list vec) (distance : R) (starting_point : option vec) : py (list vec) :=
    let? start := (match starting_point with
                  | Some p => Ret p
                  | None => match path with [] => Raise IndexError | p0 :: _ => Ret p0 end   (* 112-113 *)
                  end) in
    let direction := sign distance in
    let? c := closest_point path start in
    let '(q, ind, alpha) := c in
    if Reqb alpha 0 then travel_loop (S (S (length path))) path direction ind q (Rabs distance) [q]
    else
      let ind := S ind in
      travel_loop (S (S (S (length path)))) (firstn ind path ++ [q] ++ skipn ind path) direction ind q (Rabs distance) [q].

  (** 149-160: path_length. *)
  Fixpoint path_length_from (q : vec) (rest : list vec) : R :=
    match rest with [] => 0 | p :: rest' => dist q p + path_length_from p rest' end.
  Definition path_length (path : list vec) : R := match path with [] => 0 | q :: rest => path_length_from q rest end.
End Points.

(** trajectory_msgs/JointTrajectoryPoint: time_from_start in nanoseconds, positions, velocities. *)
Record jpoint := mkJ { j_time : Z; j_pos : list R; j_vel : list R }.

(** 168-171: the loop; [prev] is pt_next, the point before in the reversed order. *)
Fixpoint reverse_loop (prev : jpoint) (rest : list jpoint) (time_from_start : Z) : list jpoint :=
  match rest with
  | [] => []
  | pt :: rest' =>
      let t := (time_from_start + (j_time prev - j_time pt))%Z in
      mkJ t (j_pos pt) (j_vel pt) :: reverse_loop pt rest' t
  end.
(** 163-172: reverse_trajectory: the points of the copy.  Durations are exact and unbounded here. *)
Definition reverse_trajectory (points : list jpoint) : py (list jpoint) :=
  match rev points with
  | [] => Raise IndexError                                                (* 166 *)
  | p :: rest => Ret (mkJ 0 (j_pos p) (j_vel p) :: reverse_loop p rest 0)
  end.
