(** Model of src/arc_utilities/trajectory_planning.py over the real numbers.  A number or numpy array is a function from the index (a number
    is a function of one index); numpy works on arrays of the same shape entry by entry.  Rounding, broadcasting between different shapes,
    infinities and NaN are not modelled; in particular a time of 0 is excluded by the theorems (numpy gives infinities or NaN, a plain Python float
    raises ZeroDivisionError). *)
From Coq Require Import Reals.
From Verif Require Import TotpModel.
Open Scope R_scope.

(** The value of a trajectory: position, velocity, acceleration. *)
Definition state : Type := vec * vec * vec.

(** 7-24: get_trajectory_fn. *)
Definition get_trajectory_fn (a_0 a_1 a_2 a_3 : vec) (t : R) : state :=
  ((fun i => a_0 i + a_1 i * t + a_2 i * t ^ 2 + a_3 i * t ^ 3),
   (fun i => a_1 i + 2 * a_2 i * t + 3 * a_3 i * t ^ 2),
   (fun i => 2 * a_2 i + 6 * a_3 i * t)).
(** 27-31: get_linear_trajectory. *)
Definition get_linear_trajectory (x_0 v_0 : vec) : R -> state :=
  get_trajectory_fn x_0 v_0 (fun _ => 0) (fun _ => 0).
(** 34-40: get_quadratic_trajectory. *)
Definition get_quadratic_trajectory (x_0 v_0 x_t : vec) (t : R) : R -> state :=
  get_trajectory_fn x_0 v_0 (fun i => (x_t i - x_0 i - v_0 i * t) / t ^ 2) (fun _ => 0).
(** 43-49: get_cubic_trajectory. *)
Definition get_cubic_trajectory (x_0 v_0 x_t v_t : vec) (t : R) : R -> state :=
  get_trajectory_fn x_0 v_0
    (fun i => (3 * (x_t i - x_0 i) - (2 * v_0 i + v_t i) * t) / t ^ 2)
    (fun i => (2 * (x_0 i - x_t i) + (v_0 i + v_t i) * t) / t ^ 3).
