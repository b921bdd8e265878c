(** Model of the interpolation (270-303), distance (309-363) and roll-pitch-yaw (522-580) functions of include/arc_utilities/eigen_helpers.hpp for
    rotations and isometries, over the real numbers: rounding, infinities and NaN are not modelled.  slerp, eulerAngles and the conversion
    of a matrix to a quaternion follow Eigen 3.3. *)
From Coq Require Import Reals Bool.
From Verif Require Import Base MathModel GeoModel.
Open Scope R_scope.

(** std::numeric_limits<double>::epsilon(). *)
Definition epsilon : R := / 2 ^ 52.
(** 324, 317-322: Distance between two Vector3d. *)
Definition vdistance (a b : V3) : R := sqrt (vdot (vsub b a) (vsub b a)).
(** 335-342: Distance between two quaternions. *)
Definition qdistance (a b : quat) : R :=
  let dq := Rabs (qdot a b) in
  if Rltb dq (1 - epsilon) then acos (2 * (dq * dq) - 1) else 0.
(** 347-351: Distance between two rotation matrices. *)
Definition mdistance (a b : M3) : R := acos ((mtrace (mmul a (mtrans b)) - 1) / 2).
(** Quaterniond(Matrix3d): Eigen's quaternionbase_assign_impl. *)
Definition qfrom (m : M3) : quat :=
  let t := mtrace m in
  if Rltb 0 t then
    let s := sqrt (t + 1) in
    let k := / 2 / s in
    mkQ (/ 2 * s) ((m21 m - m12 m) * k) ((m02 m - m20 m) * k) ((m10 m - m01 m) * k)
  else
    let i := if Rltb (m00 m) (m11 m) then 1%nat else 0%nat in
    let i := if Rltb (match i with O => m00 m | _ => m11 m end) (m22 m) then 2%nat else i in
    match i with
    | O => let s := sqrt (m00 m - m11 m - m22 m + 1) in
           let k := / 2 / s in
           mkQ ((m21 m - m12 m) * k) (/ 2 * s) ((m10 m + m01 m) * k) ((m20 m + m02 m) * k)
    | S O => let s := sqrt (m11 m - m22 m - m00 m + 1) in
             let k := / 2 / s in
             mkQ ((m02 m - m20 m) * k) ((m01 m + m10 m) * k) (/ 2 * s) ((m21 m + m12 m) * k)
    | _ => let s := sqrt (m22 m - m00 m - m11 m + 1) in
           let k := / 2 / s in
           mkQ ((m10 m - m01 m) * k) ((m02 m + m20 m) * k) ((m12 m + m21 m) * k) (/ 2 * s)
    end.
(** 353-363: Distance between two isometries. *)
Definition idistance (dbg : bool) (a b : iso) (alpha : R) : outcome R :=
  cassert dbg (Rleb 0 alpha) (cassert dbg (Rleb alpha 1)
    (Ok (vdistance (itrans a) (itrans b) * (1 - alpha) + qdistance (qfrom (irot a)) (qfrom (irot b)) * alpha))).

(** math_helpers.hpp 70-81: SafetyCheckUnitInterval. *)
Definition unit_ratio (r : R) : R := if Rltb r 0 then 0 else if Rltb 1 r then 1 else r.
(** QuaternionBase::slerp. *)
Definition slerp (a : quat) (t : R) (b : quat) : quat :=
  let d := qdot a b in
  let '(s0, s1) :=
    if Rleb (1 - epsilon) (Rabs d) then (1 - t, t)
    else let theta := acos (Rabs d) in (sin ((1 - t) * theta) / sin theta, sin (t * theta) / sin theta) in
  let s1 := if Rltb d 0 then - s1 else s1 in
  mkQ (s0 * qw a + s1 * qw b) (s0 * qx a + s1 * qx b) (s0 * qy a + s1 * qy b) (s0 * qz a + s1 * qz b).
(** eigen_helpers.hpp 270-282: Interpolate for vectors, here of three entries. *)
Definition vinterpolate (a b : V3) (ratio : R) : V3 :=
  let r := unit_ratio ratio in
  mkV (vx a * (1 - r) + vx b * r) (vy a * (1 - r) + vy b * r) (vz a * (1 - r) + vz b * r).
(** 284-289: Interpolate for quaternions. *)
Definition qinterpolate (a b : quat) (ratio : R) : quat := slerp a (unit_ratio ratio) b.
(** 291-303: Interpolate for isometries. *)
Definition iinterpolate (a b : iso) (ratio : R) : iso :=
  let r := unit_ratio ratio in
  mkI (qmat (qinterpolate (qfrom (irot a)) (qfrom (irot b)) r)) (vinterpolate (itrans a) (itrans b) r).

(** std::atan2; the sign of a zero is not modelled: atan2(0, 0) is 0 and atan2(0, negative) is pi. *)
Definition atan2 (y x : R) : R :=
  if Rltb 0 x then atan (y / x)
  else if Rltb x 0 then if Rleb 0 y then atan (y / x) + PI else atan (y / x) - PI
  else if Rltb 0 y then PI / 2 else if Rltb y 0 then - (PI / 2) else 0.
(** Quaterniond(AngleAxisd(angle, axis)). *)
Definition qaxis (angle : R) (u : V3) : quat := mkQ (cos (angle / 2)) (sin (angle / 2) * vx u) (sin (angle / 2) * vy u) (sin (angle / 2) * vz u).
Definition ux : V3 := mkV 1 0 0.
Definition uy : V3 := mkV 0 1 0.
Definition uz : V3 := mkV 0 0 1.
(** 522-528: QuaternionFromRPY. *)
Definition quat_rpy (r p y : R) : quat := qmul (qmul (qaxis r ux) (qaxis p uy)) (qaxis y uz).
(** 531-537: QuaternionFromUrdfRPY. *)
Definition quat_urdf_rpy (r p y : R) : quat := qmul (qmul (qaxis y uz) (qaxis p uy)) (qaxis r ux).
(** 540-543: EulerAnglesFromRotationMatrix: MatrixBase::eulerAngles(0, 1, 2). *)
Definition euler_angles (m : M3) : V3 :=
  let r0 := atan2 (m12 m) (m22 m) in
  let c2 := sqrt (m00 m * m00 m + m01 m * m01 m) in
  let '(r0, r1) := if Rltb 0 r0 then (r0 - PI, atan2 (- m02 m) (- c2)) else (r0, atan2 (- m02 m) c2) in
  let s1 := sin r0 in
  let c1 := cos r0 in
  let r2 := atan2 (s1 * m20 m - c1 * m10 m) (c1 * m11 m - s1 * m21 m) in
  mkV (- r0) (- r1) (- r2).
(** 546-548: EulerAnglesFromQuaternion. *)
Definition euler_quat (q : quat) : V3 := euler_angles (qmat q).
(** 555-572: the three TransformFromRPY; the vector form asserts its size, which is fixed here. *)
Definition transform_rpy (x y z roll pitch yaw : R) : iso := mkI (qmat (quat_rpy roll pitch yaw)) (mkV x y z).
(** 574-580: TransformToRPY. *)
Definition rpy_of (a : iso) : R * R * R * R * R * R :=
  let e := euler_angles (irot a) in (vx (itrans a), vy (itrans a), vz (itrans a), vx e, vy e, vz e).
