(** Model of include/arc_utilities/simple_robot_models.hpp 150-217: the allowed self-collisions of LinkedRobotWithGeometry. *)
From Verif Require Import Base.

(** Eigen::MatrixXi as a function of the indices; only indices below the number of links are ever used. *)
Definition matrix := nat -> nat -> Z.
Definition identity : matrix := fun i j => if Nat.eqb i j then 1%Z else 0%Z.
Definition mset (m : matrix) (i j : nat) (v : Z) : matrix := fun a b => if Nat.eqb a i && Nat.eqb b j then v else m a b.

(** simple_robot_models.hpp 202-217: GenerateAllowedSelfColllisionMap. *)
Fixpoint insert_allowed (num_links : nat) (m : matrix) (allowed : list (nat * nat)) : outcome matrix :=
  match allowed with
  | [] => Ok m
  | (i, j) :: allowed =>
      if (num_links <=? i)%nat || (num_links <=? j)%nat then Throw InvalidArgument
      else insert_allowed num_links (mset (mset m i j 1) j i 1) allowed
  end.
Definition generate_map (num_links : nat) (allowed : list (nat * nat)) : outcome matrix := insert_allowed num_links identity allowed.

(** The links' names, their geometries' names, the allowed self-collision map. *)
Section Robot.
Context {N : Type} (name_eqb : N -> N -> bool).
Record linked_robot := { links : list N; geometries : list N; collision_map : matrix }.
Fixpoint names_match (a b : list N) : bool :=
  match a, b with x :: a, y :: b => if name_eqb x y then names_match a b else false | _, _ => true end.
(** 151-174: the constructor; the kinematics are not modelled. *)
Definition make_robot (link_names geometry_names : list N) (allowed : list (nat * nat)) : outcome linked_robot :=
  if (length link_names =? length geometry_names)%nat then
    if names_match link_names geometry_names then
      let! m := generate_map (length link_names) allowed in Ok {| links := link_names; geometries := geometry_names; collision_map := m |}
    else Throw InvalidArgument
  else Throw InvalidArgument.
(** 184-200: CheckIfSelfCollisionAllowed. *)
Definition collision_allowed (r : linked_robot) (i j : nat) : outcome bool :=
  if (i <? length (links r))%nat && (j <? length (links r))%nat then
    if Nat.eqb i j then Ok true
    else if (0 <? collision_map r i j)%Z then Ok true else Ok false
  else Throw InvalidArgument.
End Robot.
