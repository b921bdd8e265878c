(** Model of more of include/arc_utilities/math_helpers.hpp over the real numbers, as in MathModel. *)
From Coq Require Import Reals.
From Verif Require Import Base MathModel.
Open Scope R_scope.

(** math_helpers.hpp 41-46: Sign, for doubles. *)
Definition sgn (x : R) : Z := ((if Rltb 0 x then 1 else 0) - (if Rltb x 0 then 1 else 0))%Z.
(** 121-130: Interpolate for pairs of doubles. *)
Definition interpolate_pair (p1 p2 : R * R) (ratio : R) : R * R :=
  let r := unit_interval ratio in
  (fst p1 * (1 - r) + fst p2 * r, snd p1 * (1 - r) + snd p2 * r).
