(** Model of src/arc_utilities/transformation_helper.py over the real numbers: rounding, infinities and NaN are not modelled (normalizing a
    quaternion of length 0 gives NaN in numpy; the theorems exclude it).  Points and lists of three numbers are [V3], quaternions [quat];
    geometry_msgs/Transform and Pose have the same components and are both [xform].  A 4x4 matrix with last row 0 0 0 1 is an [iso]; all matrices
    made here are of that kind.  The functions that only move components between these types (246-316, 345-390) are the identity here. *)
From Coq Require Import Reals List Bool.
From Verif Require Import PyBase MathModel GeoModel RotModel.
Import ListNotations.
Open Scope R_scope.

(** 85-90: AddPoints. *)
Definition add_points (point1 point2 : V3) : V3 := mkV (vx point2 + vx point1) (vy point2 + vy point1) (vz point2 + vz point1).
(** 93-98: SubtractPoints. *)
Definition subtract_points (point1 point2 : V3) : V3 := mkV (vx point2 - vx point1) (vy point2 - vy point1) (vz point2 - vz point1).
(** 101-102: TranslationNorm. *)
Definition translation_norm (t : V3) : R := sqrt (vx t ^ 2 + vy t ^ 2 + vz t ^ 2).

(** 224-230, 233-240: NormalizeQuaternion, NormalizeQuaternionRos. *)
Definition normalize_quaternion (q : quat) : quat :=
  let m := sqrt (qx q ^ 2 + qy q ^ 2 + qz q ^ 2 + qw q ^ 2) in mkQ (qw q / m) (qx q / m) (qy q / m) (qz q / m).
(** 158-165: ComposeQuaternions. *)
Definition compose_quaternions (q1 q2 : quat) : quat :=
  let n1 := normalize_quaternion q1 in
  let n2 := normalize_quaternion q2 in
  let x := qw n1 * qx n2 + qw n2 * qx n1 + qy n1 * qz n2 - qy n2 * qz n1 in
  let y := qw n1 * qy n2 + qw n2 * qy n1 + qx n2 * qz n1 - qx n1 * qz n2 in
  let z := qw n1 * qz n2 + qw n2 * qz n1 + qx n1 * qy n2 - qx n2 * qy n1 in
  let w := qw n1 * qw n2 - qx n1 * qx n2 - qy n1 * qy n2 - qz n1 * qz n2 in
  normalize_quaternion (mkQ w x y z).
(** 168-178: AxisFromQuaternion: the angle and the axis. *)
Definition axis_from_quaternion (q : quat) : R * V3 :=
  let nq := normalize_quaternion q in
  let a := acos (qw nq) * 2 in
  let sina2 := sin (a * (1 / 2)) in
  if Rltb (1 / 10 ^ 9) (Rabs sina2) then (a, mkV (qx nq / sina2) (qy nq / sina2) (qz nq / sina2))
  else (0, mkV 0 0 1).
(** 181-185: NormalizeVector3 of a list of any length. *)
Definition normalize_vector3 (axis : list R) : py V3 :=
  match axis with
  | [x; y; z] =>
      let mag := sqrt (x ^ 2 + y ^ 2 + z ^ 2) in
      if Rltb 0 mag then Ret (mkV (x / mag) (y / mag) (z / mag)) else Raise PyAssertionError
  | _ => Raise PyAssertionError
  end.
(** 188-198: QuaternionFromAxisAngle; the message printed on failure is left out. *)
Definition quaternion_from_axis_angle (axis : list R) (angle : R) : py quat :=
  match normalize_vector3 axis with
  | Ret n =>
      let w := cos (angle * (1 / 2)) in
      let x := sin (angle * (1 / 2)) * vx n in
      let y := sin (angle * (1 / 2)) * vy n in
      let z := sin (angle * (1 / 2)) * vz n in
      Ret (normalize_quaternion (mkQ w x y z))
  | Raise PyAssertionError => Ret (mkQ 1 0 0 0)
  | Raise e => Raise e
  | NoEnd => NoEnd
  end.
(** 205-208, 215-218: the angle of the product [dot_product]. *)
Definition angle_of_product (dot_product : R) : R := if Rltb dot_product (9999 / 10000) then acos (2 * dot_product ^ 2 - 1) else 0.
(** 201-208: AngleBetweenQuaternions. *)
Definition angle_between (q1 q2 : quat) : R :=
  let n1 := normalize_quaternion q1 in
  let n2 := normalize_quaternion q2 in
  angle_of_product (Rabs (qx n1 * qx n2 + qy n1 * qy n2 + qz n1 * qz n2 + qw n1 * qw n2)).
(** 211-218: AngleBetweenQuaternionsRos; the last product is z times w. *)
Definition angle_between_ros (q1 q2 : quat) : R :=
  let n1 := normalize_quaternion q1 in
  let n2 := normalize_quaternion q2 in
  angle_of_product (Rabs (qx n1 * qx n2 + qy n1 * qy n2 + qz n1 * qz n2 + qz n1 * qw n2)).
(** 154-155: InvertMatrix looks up the attribute np of the numpy module, which has none. *)
Definition invert_matrix (m : iso) : py iso := Raise AttributeError.
(** 150-151: ComposeMatrices. *)
Definition compose_matrices (a b : iso) : iso := imul a b.

(** 393-399: BuildMatrixFromDH; [a] is not used. *)
Definition build_matrix_from_dh (d a theta alpha : R) : iso :=
  mkI (mkM (cos theta) (- sin theta * cos alpha) (sin theta * sin alpha)
           (sin theta) (cos theta * cos alpha) (- cos theta * sin alpha)
           0 (sin alpha) (cos alpha))
      (mkV (alpha * cos theta) (alpha * sin theta) d).

(** 418-428: spherical_to_vector3. *)
Definition spherical_to_vector3 (r phi theta : R) : V3 := mkV (r * sin theta * cos phi) (r * sin theta * sin phi) (r * cos theta).
(** 431-446: vector3_to_spherical. *)
Definition vector3_to_spherical (v : V3) : R * R * R :=
  let r := sqrt (vx v ^ 2 + vy v ^ 2 + vz v ^ 2) in
  let phi := atan2 (vy v) (vx v) in
  let theta := if Rltb (1 / 10 ^ 6) r then acos (vz v / r) else 0 in
  (r, phi, theta).

(** geometry_msgs/Transform and geometry_msgs/Pose. *)
Record xform := mkX { x_trans : V3; x_rot : quat }.

Section External.
  (** The rotation part of tf.transformations.quaternion_matrix (80, 368), tf.transformations.quaternion_from_matrix (80, 362), and
      numpy.linalg.inv (138) of a matrix with last row 0 0 0 1. *)
  Context (quaternion_matrix : quat -> M3) (quaternion_from_matrix : M3 -> quat) (linalg_inv : iso -> iso).

  (** 319-322, 331-335, 367-372: TransformToMatrix, PoseToMatrix, BuildMatrix. *)
  Definition to_mat (t : xform) : iso := mkI (quaternion_matrix (x_rot t)) (x_trans t).
  (** 325-328, 338-342, 361-364: TransformFromMatrix, PoseFromMatrix, ExtractFromMatrix. *)
  Definition from_mat (m : iso) : xform := mkX (itrans m) (quaternion_from_matrix (irot m)).
  (** 105-110, 113-118: ComposePoseWithPoint, ComposeTransformWithPoint. *)
  Definition compose_with_point (t : xform) (p : V3) : V3 := iapp (to_mat t) p.
  (** 121-126, 129-133: ComposeTransforms, ComposePoses. *)
  Definition compose_transforms (t1 t2 : xform) : xform := from_mat (imul (to_mat t1) (to_mat t2)).
  (** 136-140, 143-147: InvertTransform, InvertPose. *)
  Definition invert_transform (t : xform) : xform := from_mat (linalg_inv (to_mat t)).
  (** 408-410, 413-415: TransformFromDH, PoseFromDH. *)
  Definition transform_from_dh (d a theta alpha : R) : xform := from_mat (build_matrix_from_dh d a theta alpha).
End External.
