(** Model of arc_exceptions.hpp, moveit_pose_type.hpp, the stream operator of SimpleJointModel and dict_tools.py. *)
From Coq Require Import String Ascii.
From Verif Require Import Base VoxelFloat PrintModel FloatPrintModel.
Open Scope string_scope.

(** ** arc_exceptions.hpp *)
(** How a call ends: it returns, or throws an exception of some type with the text that what() gives. *)
Inductive ended (T : Type) : Type := Returned | Thrown (type : T) (what : string).
Arguments Returned {T}. Arguments Thrown {T}.
(** 12-16: ArcException; the types are those constructed from a text, which what() gives back. *)
Definition arc_exception {T} (type : T) (file : string) (line : Z) (message : string) : ended T :=
  Thrown type (message ++ ": " ++ file ++ ": " ++ decimal line).

(** ** moveit_pose_type.hpp 11-14: MOVEIT_VERSION_AT_LEAST(x, y, z), with the version of MoveIt as arguments *)
Definition version_at_least (major minor patch x y z : Z) : bool :=
  (x <? major)%Z || ((x <=? major)%Z && ((y <? minor)%Z || ((y <=? minor)%Z && (z <=? patch)%Z))).
(** 16-20: the type chosen for Pose. *)
Inductive pose_type := Isometry3d | Affine3d.
Definition pose_of (major minor patch : Z) : pose_type := if version_at_least major minor patch 1 0 1 then Isometry3d else Affine3d.

(** ** simple_linked_robot_model.hpp 216-220: operator<< of a joint, on a stream with the precision it was given (6 by default) *)
Definition joint_text (precision : Z) (value lower upper : fl) : string :=
  print precision value ++ "[" ++ print precision lower ++ "," ++ print precision upper ++ ")".

(** ** dict_tools.py 4-5: dict_round; a dict is its items in order of insertion, keys all different; round is an argument, which may raise *)
Fixpoint dict_round {K V W} (round : V -> Z -> outcome W) (d : list (K * V)) (places : Z) : outcome (list (K * W)) :=
  match d with [] => Ok [] | (k, v) :: d' => let! w := round v places in let! r := dict_round round d' places in Ok ((k, w) :: r) end.
