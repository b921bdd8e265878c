(** Model of the overloads of SimpleHybridRRTPlanner::Plan with a goal bias and a time limit, include/arc_utilities/simple_rrt_planner.hpp 161-245. *)
From Coq Require Import QArith.
From Verif Require Import Base RrtModel.
Open Scope nat_scope.

Section Bias.
Variable V : Type.
(** Draws from the distribution and the bias as rational numbers (finite doubles are); a bias that is not a number is [None], with which every
    comparison is false. *)
Definition above (u : Q) (bias : option Q) : bool := match bias with Some b => negb (Qle_bool u b) | None => false end.
(** simple_rrt_planner.hpp 170-172 and 207-209: sampling_function, called [n] times.  [draws i] is draw number [i] of the generator, [samples j]
    what call number [j] of state_sampling_fn returns, [goals l] the same for goal_sampling_fn; the overload with a fixed goal has constant [goals]. *)
Fixpoint targets (bias : option Q) (draws : nat -> Q) (samples goals : nat -> V) (n i j l : nat) : list V :=
  match n with
  | O => []
  | S n =>
      if above (draws i) bias then samples j :: targets bias draws samples goals n (S i) (S j) l
      else goals l :: targets bias draws samples goals n (S i) j (S l)
  end.
(** 239-243: termination_check_fn: [check k] is the clock in round [k], in ticks; the limit is in ticks as well. *)
Definition expired (start : Z) (check : nat -> Z) (limit : Q) (k : nat) : bool := negb (Qle_bool (inject_Z (check k - start)) limit).
(** The rounds begun before the check answers true, [fuel] at most. *)
Fixpoint rounds_in_time (start : Z) (check : nat -> Z) (limit : Q) (fuel k : nat) : nat :=
  match fuel with
  | O => O
  | S fuel => if expired start check limit k then O else S (rounds_in_time start check limit fuel (S k))
  end.
(** The rounds of the planner; nearest_neighbor_fn and forward_propagation_fn may behave differently in each. *)
Fixpoint rounds_of (nn : nat -> list (pstate V) -> V -> Z) (fp : nat -> V -> V -> list (V * Z)) (k : nat) (ts : list V) : list (round V) :=
  match ts with
  | [] => []
  | t :: ts => mkRound t (nn k) (fp k) :: rounds_of nn fp (S k) ts
  end.
(** 231-245: Plan with a time limit, given the targets the sampling function would return; then 161-174 and 197-211: Plan with a goal bias. *)
Definition plan_timed (goal_reached : V -> bool) (fuel : nat) nn fp (ts : nat -> list V) (start_time : Z) (check : nat -> Z) (limit : Q) (start : V) : outcome (list V * stats) :=
  plan goal_reached fuel (rounds_of nn fp 0 (ts (rounds_in_time start_time check limit fuel 0))) start.
Definition plan_biased (goal_reached : V -> bool) (fuel : nat) nn fp (bias : option Q) draws samples goals start_time check limit (start : V) : outcome (list V * stats) :=
  plan_timed goal_reached fuel nn fp (fun n => targets bias draws samples goals n 0 0 0) start_time check limit start.
End Bias.
Arguments targets {V}.
Arguments rounds_of {V}.
Arguments plan_biased {V}.
