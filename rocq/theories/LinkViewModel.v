(** Model of the accessors of simple_linked_robot_model.hpp that show the links, and of the robots with geometry of simple_robot_models.hpp.  Real
    numbers stand for doubles as in LinkModel. *)
From Coq Require Import String Reals.
From Verif Require Import Base GeoModel RotModel LinkModel SeModel SelfCollisionModel.

(** simple_linked_robot_model.hpp 634-641: GetLinkNames. *)
Definition link_names (r : robot) : list string := map rl_name (r_links r).
(** 653-660: GetLinkTransforms. *)
Definition link_transforms (r : robot) : list place := map rl_place (r_links r).
(** 662-669: GetLinkTransformsMap; the map as what is found under each key. *)
Definition link_transforms_map (r : robot) : string -> option place :=
  fold_left (fun m l => fun n => if String.eqb n (rl_name l) then Some (rl_place l) else m n) (r_links r) (fun _ => None).

(** simple_robot_models.hpp 144-148: a linked robot, the geometry of its links and the allowed self-collisions. *)
Record geometry_robot {G : Type} := mkGR { g_robot : robot; g_geometries : list (string * G); g_map : matrix }.
Arguments geometry_robot : clear implicits.
(** 151-174: the constructor. *)
Definition make_geometry_robot {G} (base : iso) (links : list rlink) (joints : list rjoint) (initial : list joint_model) (weights : list R)
  (geometries : list (string * G)) (allowed : list (nat * nat)) : outcome (geometry_robot G) :=
  let! r := LinkModel.make_robot base links joints initial weights in
  if (length links =? length geometries)%nat then
    if names_match String.eqb (map rl_name links) (map fst geometries) then
      let! m := generate_map (length (r_links r)) allowed in Ok (mkGR _ r geometries m)
    else Throw InvalidArgument
  else Throw InvalidArgument.
(** 182: GetLinkGeometries. *)
Definition link_geometries {G} (g : geometry_robot G) : list (string * G) := g_geometries g.
(** 184-200: CheckIfSelfCollisionAllowed. *)
Definition self_collision_allowed {G} (g : geometry_robot G) (i j : nat) : outcome bool :=
  if (i <? length (r_links (g_robot g)))%nat && (j <? length (r_links (g_robot g)))%nat then
    if Nat.eqb i j then Ok true else Ok (0 <? g_map g i j)%Z
  else Throw InvalidArgument.
(** The inherited SetPosition and UpdateBaseTransform. *)
Definition with_robot {G} (g : geometry_robot G) (r : robot) : geometry_robot G := mkGR _ r (g_geometries g) (g_map g).
(** 176-180: Clone, a copy of all the members. *)
Definition clone {G} (g : geometry_robot G) : geometry_robot G := mkGR _ (g_robot g) (g_geometries g) (g_map g).

(** 24-45: PointSphereGeometry: the members are the type and a shared_ptr, here an address; the points or spheres are in the heap. *)
Record point_sphere := mkPS { ps_spheres : bool; ps_address : nat }.
Definition heap := nat -> list (list R).
Definition points_of (h : heap) (g : geometry_robot point_sphere) (i : nat) : option (list (list R)) :=
  option_map (fun ng => h (ps_address (snd ng))) (nth_error (link_geometries g) i).
(** `*robot.GetLinkGeometries()[i].second.Geometry() = points`: the reference is to a constant pointer, not to constant points; [None] when out of range. *)
Definition write_points (h : heap) (g : geometry_robot point_sphere) (i : nat) (points : list (list R)) : option heap :=
  option_map (fun ng => fun a => if Nat.eqb a (ps_address (snd ng)) then points else h a) (nth_error (link_geometries g) i).

(** 83-112: SE2RobotWithGeometry, and 114-142: SE3RobotWithGeometry. *)
Record se2_geometry {G : Type} := mkG2 { g2_robot : se2; g2_geometries : list (string * G) }.
Record se3_geometry {G : Type} := mkG3 { g3_robot : se3; g3_geometries : list (string * G) }.
Arguments se2_geometry : clear implicits. Arguments se3_geometry : clear implicits.
(** 88-96. *)
Definition make_se2_geometry {G} (c : V3) (wp wr : R) (name : string) (geometry : G) : se2_geometry G := mkG2 _ (se2_make c wp wr name) [(name, geometry)].
(** 119-127. *)
Definition make_se3_geometry {G} (c : iso) (wp wr : R) (name : string) (geometry : G) : se3_geometry G := mkG3 _ (se3_make c wp wr name) [(name, geometry)].
(** The inherited SetPosition. *)
Definition se2_geometry_move {G} (g : se2_geometry G) (c : V3) : se2_geometry G := mkG2 _ (se2_set_position (g2_robot g) c) (g2_geometries g).
Definition se3_geometry_move {G} (g : se3_geometry G) (c : iso) : se3_geometry G := mkG3 _ (se3_set_position (g3_robot g) c) (g3_geometries g).
(** 107-111 and 138-142: CheckIfSelfCollisionAllowed, whatever the indices. *)
Definition se2_collision_allowed {G} (g : se2_geometry G) (i j : nat) : outcome bool := Ok true.
Definition se3_collision_allowed {G} (g : se3_geometry G) (i j : nat) : outcome bool := Ok true.
