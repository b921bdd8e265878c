(** Model of Trajectory::OutputPhasePlaneTrajectory of src/arc_utilities/time_optimal_trajectory_parametrization.cpp (286-303) in IEEE double arithmetic.
    The path enters by its length, the two limits of the speed by the functions of the position on the path, the formatted output of a double by [show]; the
    files are the texts written to them, and opening and writing them is taken to succeed. *)
From Coq Require Import String Ascii.
From Verif Require Import Base VoxelFloat DynGridFloat VoxelMakeModel AvgFloatModel.
From Flocq Require Import IEEE754.Bits IEEE754.Binary.
Open Scope string_scope.

Definition f_inf : fl := B754_infinity 53 1024 false.
Definition newline : string := String (ascii_of_nat 10) "".
Section Phase.
Variables (acc_limit vel_limit : fl -> fl).   (* GetAccelerationMaxPathVelocity, GetVelocityMaxPathVelocity *)
Variable show : fl -> string.                 (* std::ostream << double *)
(** 288: the distance of two rows. *)
Definition step_size (len : fl) : fl := b64_div NE len (f_of_Z 100000).
(** 290-294: a row: the position, the limit of the acceleration with 10 for infinity, the limit of the velocity. *)
Definition row (s : fl) : fl * fl * fl :=
  let max_velocity := acc_limit s in
  let max_velocity := if f_eqb max_velocity f_inf then f_of_Z 10 else max_velocity in
  (s, max_velocity, vel_limit s).
(** 289-295: the loop. *)
Fixpoint rows_from (fuel : nat) (len step s : fl) : outcome (list (fl * fl * fl)) :=
  match fuel with
  | O => NoFuel
  | S fuel =>
      if f_lt s len then let! r := rows_from fuel len step (b64_plus NE s step) in Ok (row s :: r)
      else Ok []
  end.
Definition rows (fuel : nat) (len : fl) : outcome (list (fl * fl * fl)) := rows_from fuel len (step_size len) f_zero.
Definition row_text (r : fl * fl * fl) : string := let '(s, m, v) := r in show s ++ "  " ++ show m ++ "  " ++ show v ++ newline.
Fixpoint concat_all (l : list string) : string := match l with [] => "" | x :: l => x ++ concat_all l end.
(** 286-296: max_velocity.txt. *)
Definition max_velocity_file (fuel : nat) (len : fl) : outcome string := let! r := rows fuel len in Ok (concat_all (map row_text r)).
(** 297-302: trajectory.txt, from the positions and speeds of the steps. *)
Definition trajectory_file (steps : list (fl * fl)) : string := concat_all (map (fun p => show (fst p) ++ "  " ++ show (snd p) ++ newline) steps).
End Phase.
