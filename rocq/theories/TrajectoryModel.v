(** Model of src/arc_utilities/trajectory_utils.cpp and include/arc_utilities/eigen_std_conversions.hpp. *)
From Verif Require Import Base.
Open Scope Z_scope.

Section Trajectory.
Variable N : Type.                      (* joint names and frame names: std::string *)
Variable name_eqb : N -> N -> bool.
Variable no_frame : N.                  (* the empty string *)
Variable P : Type.                      (* the rest of a trajectory point *)
Variable lo hi : Z.                     (* the durations ros::Duration can hold, in nanoseconds *)

(** trajectory_msgs::JointTrajectory: joint names, header.frame_id, points with time_from_start in nanoseconds.  The rest
    of the header is not touched by the code and not modelled. *)
Record trajectory := { joint_names : list N; frame_id : N; points : list (Z * P) }.

(** std::equal with three iterators: reads as many names of the second list as the first has, up to a difference. *)
Fixpoint names_equal (n1 n2 : list N) : outcome bool :=
  match n1, n2 with
  | [], _ => Ok true
  | _ :: _, [] => UB
  | a :: n1, b :: n2 => if name_eqb a b then names_equal n1 n2 else Ok false
  end.
(** ros::Duration::operator+ throws std::runtime_error outside its range. *)
Definition dadd (a b : Z) : outcome Z := if (lo <=? a + b) && (a + b <=? hi) then Ok (a + b) else Throw RuntimeError.
(** trajectory_utils.cpp 33-37: the loop over the second trajectory's points; what was added before a failure stays. *)
Fixpoint add_points (last : Z) (pts1 pts2 : list (Z * P)) : list (Z * P) * outcome unit :=
  match pts2 with
  | [] => (pts1, Ok tt)
  | (t, p) :: pts2 =>
      match dadd last t with
      | Ok t' => add_points last (pts1 ++ [(t', p)]) pts2
      | Throw e => (pts1, Throw e)
      | _ => (pts1, UB)
      end
  end.
(** 6-38: append; the trajectory left behind, and the outcome.  The two trajectories are different objects. *)
Definition append (t1 t2 : trajectory) : trajectory * outcome unit :=
  let go names :=
    let t1 := {| joint_names := names; frame_id := if name_eqb (frame_id t1) no_frame then frame_id t2 else frame_id t1; points := points t1 |} in
    let last := match rev (points t1) with (t, _) :: _ => t | [] => 0 end in
    let (pts, r) := add_points last (points t1) (points t2) in
    ({| joint_names := joint_names t1; frame_id := frame_id t1; points := pts |}, r) in
  match joint_names t1 with
  | [] => go (joint_names t2)
  | _ => match names_equal (joint_names t1) (joint_names t2) with
         | Ok true => go (joint_names t1)
         | Ok false => (t1, Throw RuntimeError)
         | _ => (t1, UB)
         end
  end.
(** The same with one object for both: emplace_back invalidates the iterators of the loop over that very vector. *)
Definition append_self (t : trajectory) : trajectory * outcome unit :=
  match points t with [] => append t t | _ => (t, UB) end.
End Trajectory.

(** eigen_std_conversions.hpp 12-14: ConvertTo<std::vector<double>>: the pointer is advanced by size times sizeof(double)
    elements, and reading beyond the vector's [data] is undefined. *)
Definition read_range {A} (data : list A) (n : nat) : outcome (list A) := if (n <=? length data)%nat then Ok (firstn n data) else UB.
Definition sizeof_double : nat := 8.
Definition convert_to {A} (vec : list A) : outcome (list A) := read_range vec (length vec * sizeof_double).
