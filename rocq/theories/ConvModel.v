(** Model of eigen_ros_conversions.hpp, eigen_helpers_conversions.hpp, geometry_msgs_builders.hpp and eigen_transforms.hpp over the reals
    (rounding within double is not modelled; conversions to float are, see [narrow]).  Eigen::Affine3d is a linear part and a translation;
    an Isometry3d is the same with rotation() the linear part. *)
From Coq Require Import String Reals.
From Flocq Require Import Core.
From Verif Require Import Base MathModel GeoModel RotModel.
Open Scope R_scope.

(** geometry_msgs/Point, Vector3, Quaternion, Pose, Transform, Wrench; the stamped ones carry the frame (time stamps and sequence numbers are left at
    their defaults and not modelled). *)
Record point := mkPt { p_x : R; p_y : R; p_z : R }.
Record vector3 := mkV3 { v_x : R; v_y : R; v_z : R }.
Record quaternion := mkQt { q_x : R; q_y : R; q_z : R; q_w : R }.
Record pose := mkPose { position : point; orientation : quaternion }.
Record transform := mkTf { translation : vector3; rot : quaternion }.
Record wrench := mkWr { force : vector3; torque : vector3 }.
Record stamped (A : Type) := mkSt { frame_id : string; payload : A }.
Arguments mkSt {A}. Arguments frame_id {A}. Arguments payload {A}.
(** Eigen::Vector4d. *)
Record V4 := mkV4 { h_x : R; h_y : R; h_z : R; h_w : R }.

(** eigen_ros_conversions.hpp:52-60, eigen_helpers_conversions.hpp:22-25, 56-59. *)
Definition point_to_eigen (p : point) : V3 := mkV (p_x p) (p_y p) (p_z p).
Definition vector3_to_eigen (v : vector3) : V3 := mkV (v_x v) (v_y v) (v_z v).
(** eigen_ros_conversions.hpp:62-78, eigen_helpers_conversions.hpp:27-33, 61-67. *)
Definition eigen_to_point (v : V3) : point := mkPt (vx v) (vy v) (vz v).
Definition eigen_to_vector3 (v : V3) : vector3 := mkV3 (vx v) (vy v) (vz v).
(** eigen_helpers_conversions.hpp:35-46, 69-80: homogeneous coordinates, 1 for a point and 0 for a vector. *)
Definition point_to_eigen4 (p : point) : V4 := mkV4 (p_x p) (p_y p) (p_z p) 1.
Definition eigen4_to_point (v : V4) : point := mkPt (h_x v) (h_y v) (h_z v).
Definition vector3_to_eigen4 (v : vector3) : V4 := mkV4 (v_x v) (v_y v) (v_z v) 0.
Definition eigen4_to_vector3 (v : V4) : vector3 := mkV3 (h_x v) (h_y v) (h_z v).
(** eigen_helpers_conversions.hpp:48-54. *)
Definition eigen_to_point_stamped (v : V3) (frame : string) : stamped point := mkSt frame (eigen_to_point v).
(** eigen_ros_conversions.hpp:118-131, eigen_helpers_conversions.hpp:82-94.  Eigen::Quaterniond(w, x, y, z). *)
Definition quaternion_to_eigen (q : quaternion) : quat := mkQ (q_w q) (q_x q) (q_y q) (q_z q).
Definition eigen_to_quaternion (q : quat) : quaternion := mkQt (qx q) (qy q) (qz q) (qw q).
(** eigen_ros_conversions.hpp:133-136. *)
Definition matrix_to_quaternion (m : M3) : quaternion := eigen_to_quaternion (qfrom m).
(** eigen_ros_conversions.hpp:152-164, eigen_helpers_conversions.hpp:96-108: trans * quat. *)
Definition pose_to_eigen (p : pose) : iso :=
  mkI (qmat (mkQ (q_w (orientation p)) (q_x (orientation p)) (q_y (orientation p)) (q_z (orientation p))))
      (mkV (p_x (position p)) (p_y (position p)) (p_z (position p))).
(** eigen_ros_conversions.hpp:212-224, eigen_helpers_conversions.hpp:168-180. *)
Definition transform_to_eigen (t : transform) : iso :=
  mkI (qmat (mkQ (q_w (rot t)) (q_x (rot t)) (q_y (rot t)) (q_z (rot t)))) (mkV (v_x (translation t)) (v_y (translation t)) (v_z (translation t))).
(** eigen_helpers_conversions.hpp:110-122. *)
Definition iso_to_pose (a : iso) : pose :=
  let q := qfrom (irot a) in mkPose (mkPt (vx (itrans a)) (vy (itrans a)) (vz (itrans a))) (mkQt (qx q) (qy q) (qz q) (qw q)).
(** eigen_ros_conversions.hpp:180-192, eigen_helpers_conversions.hpp:182-194. *)
Definition iso_to_transform (a : iso) : transform :=
  let q := qfrom (irot a) in mkTf (mkV3 (vx (itrans a)) (vy (itrans a)) (vz (itrans a))) (mkQt (qx q) (qy q) (qz q) (qw q)).
(** eigen_ros_conversions.hpp:194-206. *)
Definition translation_to_transform (t : V3) : transform := mkTf (mkV3 (vx t) (vy t) (vz t)) (mkQt 0 0 0 1).
Section Affine.
(** Transform<double, 3, Affine>::rotation(): the rotation of the polar decomposition (by a singular value decomposition). *)
Context (polar : M3 -> M3).
(** eigen_helpers_conversions.hpp:138-150. *)
Definition affine_to_pose (a : iso) : pose :=
  let q := qfrom (polar (irot a)) in mkPose (mkPt (vx (itrans a)) (vy (itrans a)) (vz (itrans a))) (mkQt (qx q) (qy q) (qz q) (qw q)).
(** eigen_ros_conversions.hpp:166-178, eigen_helpers_conversions.hpp:196-208. *)
Definition affine_to_transform (a : iso) : transform :=
  let q := qfrom (polar (irot a)) in mkTf (mkV3 (vx (itrans a)) (vy (itrans a)) (vz (itrans a))) (mkQt (qx q) (qy q) (qz q) (qw q)).
(** eigen_helpers_conversions.hpp:160-166: takes an isometry, goes through the affine version. *)
Definition affine_to_pose_stamped (a : iso) (frame : string) : stamped pose := mkSt frame (affine_to_pose a).
(** eigen_helpers_conversions.hpp:321-328, 339-346. *)
Definition affines_to_poses (l : list iso) : list pose := map affine_to_pose l.
Definition affines_to_transforms (l : list iso) : list transform := map affine_to_transform l.
End Affine.
(** eigen_helpers_conversions.hpp:152-158, 210-216. *)
Definition iso_to_pose_stamped (a : iso) (frame : string) : stamped pose := mkSt frame (iso_to_pose a).
Definition iso_to_transform_stamped (a : iso) (frame : string) : stamped transform := mkSt frame (iso_to_transform a).
(** eigen_helpers_conversions.hpp:218-248, 277-283: a 3 x n matrix, given by its columns. *)
Definition points_to_matrix (l : list point) : list V3 := map point_to_eigen l.
Definition matrix_to_points (m : list V3) : list point := map eigen_to_point m.
Definition vectors_to_matrix (l : list vector3) : list V3 := map vector3_to_eigen l.
(** eigen_helpers_conversions.hpp:285-301, 312-319, 330-337; likewise eigen_ros_conversions.hpp:228-235. *)
Definition poses_to_isos (l : list pose) : list iso := map pose_to_eigen l.
Definition transforms_to_isos (l : list transform) : list iso := map transform_to_eigen l.
Definition isos_to_poses (l : list iso) : list pose := map iso_to_pose l.
Definition isos_to_transforms (l : list iso) : list transform := map iso_to_transform l.
(** eigen_helpers_conversions.hpp:348-355. *)
Definition wrench_to_eigen (w : wrench) : V3 * V3 :=
  (mkV (v_x (force w)) (v_y (force w)) (v_z (force w)), mkV (v_x (torque w)) (v_y (torque w)) (v_z (torque w))).

(** A real number converted to float, round to nearest even; [None] beyond the largest float. *)
Definition float_round (x : R) : R := round radix2 (FLT_exp (-149) 24) ZnearestE x.
Definition narrow (x : R) : option R := if Rltb (Rabs (float_round x)) (bpow radix2 128) then Some (float_round x) else None.
(** eigen_ros_conversions.hpp:24-32: to Vector3f, component by component. *)
Definition point_to_eigenf (p : point) : option R * option R * option R := (narrow (p_x p), narrow (p_y p), narrow (p_z p)).
(** eigen_ros_conversions.hpp:34-50: every float is a double. *)
Definition eigenf_to_point (v : R * R * R) : point := let '(x, y, z) := v in mkPt x y z.

(** geometry_msgs_builders.hpp:9-70. *)
Definition make_point (x y z : R) : point := mkPt x y z.
Definition make_vector3 (x y z : R) : vector3 := mkV3 x y z.
Definition make_quaternion (x y z w : R) : quaternion := mkQt x y z w.
Definition make_transform (t : vector3) (r : quaternion) : transform := mkTf t r.
Definition make_transform_p (t : point) (r : quaternion) : transform := mkTf (mkV3 (p_x t) (p_y t) (p_z t)) r.
Definition make_pose (p : point) (o : quaternion) : pose := mkPose p o.
Definition make_pose_v (p : vector3) (o : quaternion) : pose := mkPose (mkPt (v_x p) (v_y p) (v_z p)) o.

(** eigen_transforms.hpp:7-25: Transform of a pair and of a vector, of poses or of points. *)
Definition transform_pair {A B A' B'} (f : A -> A') (g : B -> B') (p : A * B) : A' * B' := (f (fst p), g (snd p)).
Definition transform_poses (a : iso) (l : list iso) : list iso := map (imul a) l.
Definition transform_points (a : iso) (l : list V3) : list V3 := map (iapp a) l.
Definition transform_pose_point (a : iso) (p : iso * V3) : iso * V3 := transform_pair (imul a) (iapp a) p.
(** eigen_transforms.hpp:12-15: translations become poses. *)
Definition transform_translations (a : iso) (p : V3 * V3) : iso * iso := transform_pair (fun t => imul a (mkI mid t)) (fun t => imul a (mkI mid t)) p.
