(** Model of the kinematics functions of include/arc_utilities/eigen_helpers.hpp (125-264) over the real numbers: rounding, infinities and
    NaN are not modelled, the warning printed by ExpTwist is not either.  Eigen's fixed size vectors, matrices and quaternions are records
    of real numbers with Eigen's operations. *)
From Coq Require Import Reals Bool.
From Verif Require Import Base MathModel.
Open Scope R_scope.

(** Eigen::Vector3d. *)
Record V3 := mkV { vx : R; vy : R; vz : R }.
Definition vzero : V3 := mkV 0 0 0.
Definition vadd (a b : V3) : V3 := mkV (vx a + vx b) (vy a + vy b) (vz a + vz b).
Definition vsub (a b : V3) : V3 := mkV (vx a - vx b) (vy a - vy b) (vz a - vz b).
Definition vscale (k : R) (a : V3) : V3 := mkV (k * vx a) (k * vy a) (k * vz a).
Definition vdivs (a : V3) (k : R) : V3 := mkV (vx a / k) (vy a / k) (vz a / k).
Definition vdot (a b : V3) : R := vx a * vx b + vy a * vy b + vz a * vz b.
Definition vcross (a b : V3) : V3 := mkV (vy a * vz b - vz a * vy b) (vz a * vx b - vx a * vz b) (vx a * vy b - vy a * vx b).
Definition vnorm (a : V3) : R := sqrt (vdot a a).

(** Eigen::Matrix3d. *)
Record M3 := mkM { m00 : R; m01 : R; m02 : R; m10 : R; m11 : R; m12 : R; m20 : R; m21 : R; m22 : R }.
Definition mid : M3 := mkM 1 0 0 0 1 0 0 0 1.
Definition mzero : M3 := mkM 0 0 0 0 0 0 0 0 0.
Definition madd (a b : M3) : M3 :=
  mkM (m00 a + m00 b) (m01 a + m01 b) (m02 a + m02 b) (m10 a + m10 b) (m11 a + m11 b) (m12 a + m12 b) (m20 a + m20 b) (m21 a + m21 b) (m22 a + m22 b).
Definition msub (a b : M3) : M3 :=
  mkM (m00 a - m00 b) (m01 a - m01 b) (m02 a - m02 b) (m10 a - m10 b) (m11 a - m11 b) (m12 a - m12 b) (m20 a - m20 b) (m21 a - m21 b) (m22 a - m22 b).
Definition mscale (a : M3) (k : R) : M3 :=
  mkM (m00 a * k) (m01 a * k) (m02 a * k) (m10 a * k) (m11 a * k) (m12 a * k) (m20 a * k) (m21 a * k) (m22 a * k).
Definition mtrans (a : M3) : M3 := mkM (m00 a) (m10 a) (m20 a) (m01 a) (m11 a) (m21 a) (m02 a) (m12 a) (m22 a).
Definition mmul (a b : M3) : M3 :=
  mkM (m00 a * m00 b + m01 a * m10 b + m02 a * m20 b) (m00 a * m01 b + m01 a * m11 b + m02 a * m21 b) (m00 a * m02 b + m01 a * m12 b + m02 a * m22 b)
      (m10 a * m00 b + m11 a * m10 b + m12 a * m20 b) (m10 a * m01 b + m11 a * m11 b + m12 a * m21 b) (m10 a * m02 b + m11 a * m12 b + m12 a * m22 b)
      (m20 a * m00 b + m21 a * m10 b + m22 a * m20 b) (m20 a * m01 b + m21 a * m11 b + m22 a * m21 b) (m20 a * m02 b + m21 a * m12 b + m22 a * m22 b).
Definition mapp (a : M3) (v : V3) : V3 :=
  mkV (m00 a * vx v + m01 a * vy v + m02 a * vz v) (m10 a * vx v + m11 a * vy v + m12 a * vz v) (m20 a * vx v + m21 a * vy v + m22 a * vz v).
Definition mdet (a : M3) : R :=
  m00 a * (m11 a * m22 a - m12 a * m21 a) - m01 a * (m10 a * m22 a - m12 a * m20 a) + m02 a * (m10 a * m21 a - m11 a * m20 a).
Definition mtrace (a : M3) : R := m00 a + m11 a + m22 a.
(** v * w.transpose(). *)
Definition outer (v w : V3) : M3 :=
  mkM (vx v * vx w) (vx v * vy w) (vx v * vz w) (vy v * vx w) (vy v * vy w) (vy v * vz w) (vz v * vx w) (vz v * vy w) (vz v * vz w).

(** Eigen::Matrix4d, by blocks: the upper left 3 x 3 block, the last column, the last row, the corner. *)
Record M4 := mkM4 { b33 : M3; b31 : V3; b13 : V3; b11 : R }.
(** Eigen::Isometry3d: the last row is always 0 0 0 1. *)
Record iso := mkI { irot : M3; itrans : V3 }.
Definition iid : iso := mkI mid vzero.
Definition imul (a b : iso) : iso := mkI (mmul (irot a) (irot b)) (vadd (mapp (irot a) (itrans b)) (itrans a)).
(** inverse(Isometry): uses the transpose. *)
Definition iinv (a : iso) : iso := mkI (mtrans (irot a)) (mapp (mscale (mtrans (irot a)) (-1)) (itrans a)).
Definition iapp (a : iso) (p : V3) : V3 := vadd (mapp (irot a) p) (itrans a).

(** A twist: Matrix<double, 6, 1>, the translational part first. *)
Record twist := mkT { tv : V3; tw : V3 }.

(** 157-161: Skew. *)
Definition skew (v : V3) : M3 := mkM 0 (- vz v) (vy v) (vz v) 0 (- vx v) (- vy v) (vx v) 0.
(** 163-167: Unskew. *)
Definition unskew (m : M3) : V3 :=
  let sym := mscale (msub m (mtrans m)) (/ 2) in mkV (m21 sym) (m02 sym) (m10 sym).
(** 169-176: TwistHat. *)
Definition twist_hat (t : twist) : M4 := mkM4 (skew (tw t)) (tv t) vzero 0.
(** 178-185: TwistUnhat. *)
Definition twist_unhat (m : M4) : twist := mkT (b31 m) (unskew (b33 m)).
(** 187-209: AdjointFromTransform and TransformTwist, for an isometry, whose rotation() is its linear part.  The 6 x 6 matrix is given by its
    blocks: (0, 0), (0, 3), (3, 0), (3, 3). *)
Definition adjoint (a : iso) : M3 * M3 * M3 * M3 :=
  (irot a, mmul (skew (itrans a)) (irot a), mzero, irot a).
Definition transform_twist (a : iso) (t : twist) : twist :=
  let '(a00, a03, a30, a33) := adjoint a in
  mkT (vadd (mapp a00 (tv t)) (mapp a03 (tw t))) (vadd (mapp a30 (tv t)) (mapp a33 (tw t))).
(** 211-218: TwistBetweenTransforms, for isometries; [log] is the matrix logarithm of Eigen's MatrixFunctions. *)
Definition to_matrix (a : iso) : M4 := mkM4 (irot a) (itrans a) vzero 1.
Definition twist_between (log : M4 -> M4) (start stop : iso) : twist := twist_unhat (log (to_matrix (imul (iinv start) stop))).
(** 220-225: ExpMatrixExact. *)
Definition exp_matrix (dbg : bool) (k : M3) (t : R) : outcome M3 :=
  cassert dbg (Rltb (Rabs (vnorm (unskew k) - 1)) (1 / 10 ^ 10)) (Ok (madd (madd mid (mscale k (sin t))) (mscale (mmul k k) (1 - cos t)))).
(** 234-242, 250-258: the general case of ExpTwist. *)
Definition exp_screw (dbg : bool) (v w : V3) (n : R) (dt : R) : outcome iso :=
  let st := dt * n in
  let sv := vdivs v n in
  let sw := vdivs w n in
  let! r := exp_matrix dbg (skew sw) st in
  Ok (mkI r (vadd (mapp (msub mid r) (vcross sw sv)) (mapp (mscale (outer sw sw) st) sv))).
(** 227-264: ExpTwist.  sw * sw.transpose() * sv * st is evaluated from the left; over the reals the order does not matter. *)
Definition exp_twist (dbg : bool) (t : twist) (dt : R) : outcome iso :=
  let v := tv t in
  let w := tw t in
  let vn := vnorm v in
  let wn := vnorm w in
  if Rleb (1 / 10 ^ 100) wn then exp_screw dbg v w wn dt
  else if Rleb (1 / 10 ^ 100) vn || Reqb wn 0 then Ok (mkI mid (vscale dt v))
  else exp_screw dbg v w wn dt.

(** Eigen::Quaterniond. *)
Record quat := mkQ { qw : R; qx : R; qy : R; qz : R }.
Definition qmul (a b : quat) : quat :=
  mkQ (qw a * qw b - qx a * qx b - qy a * qy b - qz a * qz b)
      (qw a * qx b + qx a * qw b + qy a * qz b - qz a * qy b)
      (qw a * qy b + qy a * qw b + qz a * qx b - qx a * qz b)
      (qw a * qz b + qz a * qw b + qx a * qy b - qy a * qx b).
Definition qdot (a b : quat) : R := qw a * qw b + qx a * qx b + qy a * qy b + qz a * qz b.
Definition qconj (a : quat) : quat := mkQ (qw a) (- qx a) (- qy a) (- qz a).
(** QuaternionBase::inverse: the conjugate over the squared norm; the zero quaternion if the squared norm is not positive. *)
Definition qinv (a : quat) : quat :=
  let n2 := qdot a a in
  if Rltb 0 n2 then mkQ (qw a / n2) (- qx a / n2) (- qy a / n2) (- qz a / n2) else mkQ 0 0 0 0.
(** QuaternionBase::toRotationMatrix. *)
Definition qmat (q : quat) : M3 :=
  let tx := 2 * qx q in let ty := 2 * qy q in let tz := 2 * qz q in
  let twx := tx * qw q in let twy := ty * qw q in let twz := tz * qw q in
  let txx := tx * qx q in let txy := ty * qx q in let txz := tz * qx q in
  let tyy := ty * qy q in let tyz := tz * qy q in let tzz := tz * qz q in
  mkM (1 - (tyy + tzz)) (txy - twz) (txz + twy) (txy + twz) (1 - (txx + tzz)) (tyz - twx) (txz - twy) (tyz + twx) (1 - (txx + tyy)).
(** 125-129: RotateVector. *)
Definition rotate_vector (q : quat) (v : V3) : V3 :=
  let temp := mkQ 0 (vx v) (vy v) (vz v) in
  let res := qmul q (qmul temp (qinv q)) in
  mkV (qx res) (qy res) (qz res).
(** 131-135: RotateVectorReverse. *)
Definition rotate_vector_reverse (q : quat) (v : V3) : V3 :=
  let temp := mkQ 0 (vx v) (vy v) (vz v) in
  let res := qmul (qinv q) (qmul temp q) in
  mkV (qx res) (qy res) (qz res).
