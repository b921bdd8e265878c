(** C141: the functions of transformation_helper.py compute with rotations and rigid motions.  Rotating a point by a quaternion is
    [rotate_vector] (q p q^-1, for any quaternion but zero), [rodrigues] is the rotation about a unit axis by an angle, and [mdistance] the angle of
    the rotation between two rotation matrices. *)
From Coq Require Import Reals Lra Lia List Bool.
From Verif Require Import PyBase MathModel TotpVec GeoModel GeoAlg RotModel GeoProps RotProps RotDistProps PyTfModel.
Import ListNotations.
Open Scope R_scope.

(** ** Normalizing *)
Lemma norm_form q : sqrt (qx q ^ 2 + qy q ^ 2 + qz q ^ 2 + qw q ^ 2) = sqrt (qdot q q).
Proof. f_equal. unfold qdot. ring. Qed.
Lemma normalize_scale q : 0 < qdot q q -> exists k, 0 < k /\ k * k * qdot q q = 1 /\ normalize_quaternion q = qsmul k q.
Proof.
  intros P. exists (/ sqrt (qdot q q)). assert (S : 0 < sqrt (qdot q q)) by (apply sqrt_lt_R0; auto). split; [apply Rinv_0_lt_compat; auto|]. split.
  - rewrite <- (sqrt_sqrt (qdot q q)) at 3 by lra. field. lra.
  - unfold normalize_quaternion. cbv zeta. rewrite norm_form. unfold qsmul. f_equal; unfold Rdiv; ring.
Qed.
Lemma normalize_unit q : 0 < qdot q q -> qunit (normalize_quaternion q).
Proof. intros P. destruct (normalize_scale q P) as (k & _ & K & ->). unfold qunit. rewrite <- K. unfold qsmul. unf; ring. Qed.
Lemma normalize_id q : qunit q -> normalize_quaternion q = q.
Proof.
  intros U. unfold normalize_quaternion. cbv zeta. rewrite norm_form, U, sqrt_1. destruct q. cbn. f_equal; field.
Qed.
Lemma rotate_scale k q v : k <> 0 -> 0 < qdot q q -> rotate_vector (qsmul k q) v = rotate_vector q v.
Proof.
  intros K P. assert (E : qdot (qsmul k q) (qsmul k q) = k * k * qdot q q) by (unfold qsmul; unf; ring).
  assert (0 < k * k) by (destruct (Rlt_le_dec 0 k); nra). rewrite !rotate_formula; auto; [|rewrite E; apply Rmult_lt_0_compat; auto].
  rewrite E. assert (N : qdot q q <> 0) by lra. revert N. generalize (qdot q q). intros n N. unfold qsmul. apply V3_eq; unf; field; auto.
Qed.
Lemma rotate_unit q v : qunit q -> rotate_vector q v = mapp (qmat q) v.
Proof.
  intros U. rewrite rotate_formula by (rewrite U; lra). assert (D : qdot q q = 1) by exact U. rewrite D. f_equal.
  unfold qdot in D. unfold qmat. apply M3_eq; unf; rewrite Rinv_1; lra.
Qed.

(** NormalizeQuaternion gives a quaternion of length 1 that rotates in the same way. *)
Theorem C141_normalize q v : 0 < qdot q q -> qdot (normalize_quaternion q) (normalize_quaternion q) = 1 /\ rotate_vector (normalize_quaternion q) v = rotate_vector q v.
Proof.
  intros P. split; [apply normalize_unit; auto|]. destruct (normalize_scale q P) as (k & K & _ & ->). apply rotate_scale; [lra|auto].
Qed.
Print Assumptions C141_normalize.

(** ** Products *)
(** ComposeQuaternions: rotating by the result is rotating by the second and then by the first. *)
Theorem C141_compose_quaternions q1 q2 v : 0 < qdot q1 q1 -> 0 < qdot q2 q2 ->
  let q := compose_quaternions q1 q2 in
  qdot q q = 1 /\ rotate_vector q v = rotate_vector q1 (rotate_vector q2 v).
Proof.
  intros P1 P2 q. pose proof (normalize_unit q1 P1) as U1. pose proof (normalize_unit q2 P2) as U2.
  assert (E : q = qmul (normalize_quaternion q1) (normalize_quaternion q2)).
  { unfold q, compose_quaternions. cbv zeta. set (n1 := normalize_quaternion q1) in *. set (n2 := normalize_quaternion q2) in *.
    replace (mkQ _ _ _ _) with (qmul n1 n2) by (apply Q_eq; unf; ring). apply normalize_id. unfold qunit. rewrite qdot_qmul, U1, U2. ring. }
  assert (U : qunit q) by (rewrite E; unfold qunit; rewrite qdot_qmul, U1, U2; ring).
  split; [exact U|]. rewrite <- (proj2 (C141_normalize q1 _ P1)), <- (proj2 (C141_normalize q2 _ P2)).
  rewrite !rotate_unit; auto. rewrite E, qmat_mul by auto. apply mapp_mmul.
Qed.
Print Assumptions C141_compose_quaternions.

(** ** Axis and angle *)
(** QuaternionFromAxisAngle: for a list of three numbers, not all zero, the rotation about that direction by the angle; for every other list the
    identity. *)
Theorem C141_from_axis_angle x y z angle : x * x + y * y + z * z <> 0 ->
  exists q u k, quaternion_from_axis_angle [x; y; z] angle = Ret q /\ qdot q q = 1 /\
    vdot u u = 1 /\ 0 < k /\ mkV x y z = vscale k u /\ forall v, rotate_vector q v = mapp (rodrigues u angle) v.
Proof.
  intros NZ. unfold quaternion_from_axis_angle, normalize_vector3. cbv zeta.
  assert (P : 0 < x * x + y * y + z * z) by (pose proof (Rle_0_sqr x); pose proof (Rle_0_sqr y); pose proof (Rle_0_sqr z); unfold Rsqr in *; lra).
  replace (x ^ 2 + y ^ 2 + z ^ 2) with (x * x + y * y + z * z) by ring. set (m := sqrt (x * x + y * y + z * z)).
  assert (M : 0 < m) by (apply sqrt_lt_R0; auto). rewrite (proj2 (Rltb_true _ _) M).
  assert (MM : m * m = x * x + y * y + z * z) by (apply sqrt_sqrt; lra).
  set (u := mkV (x / m) (y / m) (z / m)).
  assert (U : vdot u u = 1) by (unfold u, vdot; cbn [vx vy vz]; replace (x / m * (x / m) + y / m * (y / m) + z / m * (z / m)) with ((x * x + y * y + z * z) / (m * m)) by (field; lra); rewrite MM; field; lra).
  assert (E : mkQ (cos (angle * (1 / 2))) (sin (angle * (1 / 2)) * vx u) (sin (angle * (1 / 2)) * vy u) (sin (angle * (1 / 2)) * vz u) = qaxis angle u)
    by (unfold qaxis; replace (angle * (1 / 2)) with (angle / 2) by field; reflexivity).
  rewrite E.
  assert (Q : qunit (qaxis angle u)).
  { unfold qunit, qaxis. pose proof (trig (angle / 2)) as T. unfold qdot. cbn [qw qx qy qz]. unfold vdot in U.
    set (s := sin (angle / 2)) in *. set (c := cos (angle / 2)) in *.
    replace (c * c + s * vx u * (s * vx u) + s * vy u * (s * vy u) + s * vz u * (s * vz u)) with (c * c + s * s * (vx u * vx u + vy u * vy u + vz u * vz u)) by ring.
    rewrite U. lra. }
  rewrite normalize_id by auto. exists (qaxis angle u), u, m. split; auto. split; auto. split; auto. split; auto. split.
  - unfold u, vscale. cbn [vx vy vz]. f_equal; field; lra.
  - intros v. rewrite rotate_unit by auto. rewrite rod_quat. reflexivity.
Qed.
Print Assumptions C141_from_axis_angle.
Theorem C141_bad_axis axis angle : (length axis <> 3%nat \/ Forall (fun x => x = 0) axis) -> quaternion_from_axis_angle axis angle = Ret (mkQ 1 0 0 0).
Proof.
  intros H. unfold quaternion_from_axis_angle, normalize_vector3. destruct axis as [|x [|y [|z [|? ?]]]]; try reflexivity. cbv zeta.
  destruct H as [H|H]; [cbn in H; lia|]. inversion_clear H as [|? ? X H1]. inversion_clear H1 as [|? ? Y H2]. inversion_clear H2 as [|? ? Z _]. subst.
  replace (0 ^ 2 + 0 ^ 2 + 0 ^ 2) with 0 by ring. rewrite sqrt_0. rewrite (proj2 (Rltb_false 0 0)) by lra. reflexivity.
Qed.
Print Assumptions C141_bad_axis.

Lemma unit_parts q : qunit q -> -1 <= qw q <= 1 /\ qx q * qx q + qy q * qy q + qz q * qz q = 1 - qw q * qw q.
Proof.
  unfold qunit, qdot. intros U. pose proof (Rle_0_sqr (qx q)). pose proof (Rle_0_sqr (qy q)). pose proof (Rle_0_sqr (qz q)). unfold Rsqr in *. split; [|lra]. split; nra.
Qed.
(** AxisFromQuaternion: an angle from 0 to 2 pi and an axis of length 1 such that the rotation about the axis by the angle is that of the
    quaternion; except that for a quaternion whose vector part (after normalizing) is at most 1e-9 long the answer is no rotation. *)
Theorem C141_axis_from_quaternion q v : 0 < qdot q q ->
  let n := normalize_quaternion q in
  let '(a, u) := axis_from_quaternion q in
  0 <= a <= 2 * PI /\ vdot u u = 1 /\
  (1 / 10 ^ 9 < vnorm (mkV (qx n) (qy n) (qz n)) -> rotate_vector q v = mapp (rodrigues u a) v) /\
  (vnorm (mkV (qx n) (qy n) (qz n)) <= 1 / 10 ^ 9 -> a = 0 /\ u = mkV 0 0 1).
Proof.
  intros P n. pose proof (normalize_unit q P) as U. rewrite <- (proj2 (C141_normalize q v P)). unfold axis_from_quaternion. cbv zeta. fold n. fold n in U.
  destruct (unit_parts n U) as [B V]. destruct (sin_acos_sq (qw n) B) as [S2 S0]. pose proof (acos_bound (qw n)) as AB. pose proof PI_RGT_0.
  replace (acos (qw n) * 2 * (1 / 2)) with (acos (qw n)) by field. set (s := sin (acos (qw n))) in *.
  assert (NS : vnorm (mkV (qx n) (qy n) (qz n)) = s).
  { unfold vnorm, vdot. cbn [vx vy vz]. rewrite V, <- S2. apply sqrt_square. auto. }
  rewrite NS, Rabs_pos_eq by auto. assert (T : 0 < 1 / 10 ^ 9) by (apply Rdiv_lt_0_compat; [lra|apply pow_lt; lra]).
  destruct (Rltb (1 / 10 ^ 9) s) eqn:E.
  - apply Rltb_true in E. split; [lra|]. split.
    + unfold vdot. cbn [vx vy vz]. replace (qx n / s * (qx n / s) + qy n / s * (qy n / s) + qz n / s * (qz n / s)) with ((qx n * qx n + qy n * qy n + qz n * qz n) / (s * s)) by (field; lra).
      rewrite V, S2. field. rewrite <- S2. nra.
    + split; [intros _|intros; lra]. rewrite rotate_unit by auto. f_equal. rewrite rod_quat. f_equal. unfold qaxis. replace (acos (qw n) * 2 / 2) with (acos (qw n)) by field.
      fold s. rewrite cos_acos by auto. cbn [vx vy vz]. destruct n as [w x y z]. cbn [qw qx qy qz]. f_equal; field; lra.
  - apply Rltb_false in E. split; [lra|]. split; [unfold vdot; cbn; ring|]. split; [intros; lra|auto].
Qed.
Print Assumptions C141_axis_from_quaternion.

(** ** Angles *)
(** AngleBetweenQuaternions is the angle between the rotations, or 0 if the product of the quaternions is at least 0.9999. *)
Theorem C141_angle q1 q2 : 0 < qdot q1 q1 -> 0 < qdot q2 q2 ->
  let r1 := qmat (normalize_quaternion q1) in let r2 := qmat (normalize_quaternion q2) in
  (2 * acos (9999 / 10000) < mdistance r1 r2 -> angle_between q1 q2 = mdistance r1 r2) /\
  (mdistance r1 r2 <= 2 * acos (9999 / 10000) -> angle_between q1 q2 = 0).
Proof.
  intros P1 P2 r1 r2. pose proof (normalize_unit q1 P1) as U1. pose proof (normalize_unit q2 P2) as U2. unfold r1, r2. rewrite mdistance_quat by auto.
  unfold angle_between. cbv zeta. set (n1 := normalize_quaternion q1) in *. set (n2 := normalize_quaternion q2) in *.
  replace (qx n1 * qx n2 + qy n1 * qy n2 + qz n1 * qz n2 + qw n1 * qw n2) with (qdot n1 n2) by (unfold qdot; ring).
  pose proof (unit_dot n1 n2 U1 U2) as D. set (d := Rabs (qdot n1 n2)) in *. unfold angle_of_product.
  assert (MONO : forall x y, -1 <= x <= 1 -> -1 <= y <= 1 -> x < y -> acos y < acos x).
  { intros x y X Y L. destruct (Rlt_le_dec (acos y) (acos x)) as [G|G]; auto. exfalso. pose proof (acos_bound x). pose proof (acos_bound y).
    assert (cos (acos y) <= cos (acos x)) by (apply cos_decr_1; lra). rewrite !cos_acos in H1 by auto. lra. }
  destruct (Rltb d (9999 / 10000)) eqn:E.
  - apply Rltb_true in E. pose proof (MONO d (9999 / 10000) ltac:(lra) ltac:(lra) E). split; [|intros; lra].
    intros _. replace (d ^ 2) with (d * d) by ring. apply acos_double; lra.
  - apply Rltb_false in E. split; auto. intros L. exfalso. destruct (Req_dec d (9999 / 10000)) as [Q|Q]; [rewrite Q in L; lra|].
    pose proof (MONO (9999 / 10000) d ltac:(lra) ltac:(lra) ltac:(lra)). lra.
Qed.
Print Assumptions C141_angle.

(** The version for messages is wrong: it finds half a turn between the identity and itself. *)
Theorem C141_angle_ros_refuted : exists q, qdot q q = 1 /\ angle_between q q = 0 /\ angle_between_ros q q = PI.
Proof.
  exists (mkQ 1 0 0 0). assert (U : qunit (mkQ 1 0 0 0)) by (unfold qunit, qdot; cbn; ring). split; [exact U|].
  unfold angle_between, angle_between_ros. rewrite normalize_id by auto. cbv zeta. cbn [qx qy qz qw]. split.
  - replace (0 * 0 + 0 * 0 + 0 * 0 + 1 * 1) with 1 by ring. rewrite Rabs_pos_eq by lra. unfold angle_of_product. rewrite (proj2 (Rltb_false _ _)) by lra. reflexivity.
  - replace (0 * 0 + 0 * 0 + 0 * 0 + 0 * 1) with 0 by ring. rewrite Rabs_R0. unfold angle_of_product. rewrite (proj2 (Rltb_true _ _)) by lra.
    replace (2 * 0 ^ 2 - 1) with (- (1)) by ring. rewrite acos_opp, acos_1. ring.
Qed.
Print Assumptions C141_angle_ros_refuted.

(** ** Points and matrices *)
(** AddPoints and TranslationNorm are the sum and the length; SubtractPoints is not the difference but its negative. *)
Theorem C141_points p1 p2 : add_points p1 p2 = vadd p1 p2 /\ translation_norm p1 = vnorm p1 /\ subtract_points p1 p2 = vsub p2 p1.
Proof.
  split; [|split]; [unfold add_points, vadd; f_equal; ring| |reflexivity]. unfold translation_norm, vnorm, vdot. f_equal. ring.
Qed.
Print Assumptions C141_points.
Theorem C141_subtract_refuted : exists p1 p2, add_points (subtract_points p1 p2) p2 <> p1.
Proof. exists (mkV 1 0 0), (mkV 0 0 0). intros E. apply (f_equal vx) in E. cbn in E. lra. Qed.
Print Assumptions C141_subtract_refuted.
(** ComposeMatrices: the second matrix moves the point first. *)
Theorem C141_compose_matrices a b p : iapp (compose_matrices a b) p = iapp a (iapp b p).
Proof. unfold compose_matrices. unfold iapp, imul. cbn [irot itrans]. apply V3_eq; unf; ring. Qed.
Print Assumptions C141_compose_matrices.
(** InvertMatrix always raises. *)
Theorem C141_invert_matrix_refuted : forall m, invert_matrix m = Raise AttributeError.
Proof. reflexivity. Qed.
Print Assumptions C141_invert_matrix_refuted.

(** The matrix of Denavit-Hartenberg parameters: turn by theta about z, move by d along z, move by a along x, turn by alpha about x. *)
Definition dh (d a theta alpha : R) : iso :=
  imul (mkI (rot_z theta) vzero) (imul (mkI mid (mkV 0 0 d)) (imul (mkI mid (mkV a 0 0)) (mkI (rot_x alpha) vzero))).
(** BuildMatrixFromDH has the right rotation and moves by alpha instead of a along x. *)
Theorem C141_dh d a theta alpha :
  rigid (build_matrix_from_dh d a theta alpha) /\ irot (build_matrix_from_dh d a theta alpha) = irot (dh d a theta alpha) /\
  build_matrix_from_dh d a theta alpha = dh d alpha theta alpha.
Proof.
  assert (E : forall a, build_matrix_from_dh d a theta alpha = dh d alpha theta alpha).
  { intros a'. unfold build_matrix_from_dh, dh, imul, rot_z, rot_x, mid. cbn [irot itrans]. f_equal; [apply M3_eq|apply V3_eq]; unf; ring. }
  assert (E2 : irot (dh d alpha theta alpha) = irot (dh d a theta alpha)) by reflexivity.
  split; [|split; auto; rewrite E; auto]. rewrite E. unfold rigid, dh, imul. cbn [irot].
  assert (RZ : rotation (rot_z theta)).
  { rewrite <- qmat_z. apply qmat_rot. unfold qunit, qaxis, uz, qdot. cbn. pose proof (trig (theta / 2)). lra. }
  assert (RX : rotation (rot_x alpha)).
  { rewrite <- qmat_x. apply qmat_rot. unfold qunit, qaxis, ux, qdot. cbn. pose proof (trig (alpha / 2)). lra. }
  replace (mmul (rot_z theta) (mmul mid (mmul mid (rot_x alpha)))) with (mmul (rot_z theta) (rot_x alpha)) by (apply M3_eq; unf; ring).
  apply rot_mul; auto.
Qed.
Print Assumptions C141_dh.
Theorem C141_dh_refuted : exists d a theta alpha, build_matrix_from_dh d a theta alpha <> dh d a theta alpha.
Proof.
  exists 0, 1, 0, 0. intros E. apply (f_equal (fun m => vx (itrans m))) in E. revert E. unfold build_matrix_from_dh, dh, imul, rot_z, rot_x, mid. unf.
  rewrite cos_0, sin_0. lra.
Qed.
Print Assumptions C141_dh_refuted.

(** ** Spherical coordinates *)
Lemma vnorm_form v : sqrt (vx v ^ 2 + vy v ^ 2 + vz v ^ 2) = vnorm v.
Proof. unfold vnorm, vdot. f_equal. ring. Qed.
Lemma vdot_nonneg v : 0 <= vdot v v.
Proof. unfold vdot. pose proof (Rle_0_sqr (vx v)). pose proof (Rle_0_sqr (vy v)). pose proof (Rle_0_sqr (vz v)). unfold Rsqr in *. lra. Qed.
(** Going to spherical coordinates and back gives the vector, if it is longer than 1e-6; the length is kept in any case. *)
Theorem C141_spherical v : let '(r, phi, theta) := vector3_to_spherical v in
  r = vnorm v /\ - PI < phi <= PI /\ 0 <= theta <= PI /\
  (1 / 10 ^ 6 < vnorm v -> spherical_to_vector3 r phi theta = v) /\ vnorm (spherical_to_vector3 r phi theta) = vnorm v.
Proof.
  unfold vector3_to_spherical. cbv zeta. rewrite vnorm_form. set (r := vnorm v). set (phi := atan2 (vy v) (vx v)).
  assert (R0 : 0 <= r) by apply sqrt_pos. assert (RR : r * r = vdot v v) by (apply sqrt_sqrt, vdot_nonneg). pose proof PI_RGT_0.
  assert (T : 0 < 1 / 10 ^ 6) by (apply Rdiv_lt_0_compat; [lra|apply pow_lt; lra]).
  split; [reflexivity|]. split; [apply atan2_range|].
  set (theta := if Rltb (1 / 10 ^ 6) r then acos (vz v / r) else 0). split; [|split].
  - unfold theta. destruct (Rltb _ _); [apply acos_bound|lra].
  - intros L. unfold theta. rewrite (proj2 (Rltb_true _ _) L). clear theta. unfold vdot in RR.
    assert (B : -1 <= vz v / r <= 1).
    { pose proof (Rle_0_sqr (vx v)). pose proof (Rle_0_sqr (vy v)). unfold Rsqr in *. assert (vz v * vz v <= r * r) by lra.
      assert (- r <= vz v <= r) by (split; nra). split; [apply Rmult_le_reg_r with r|apply Rmult_le_reg_r with r]; try lra; unfold Rdiv; rewrite Rmult_assoc, Rinv_l by lra; lra. }
    destruct (sin_acos_sq (vz v / r) B) as [S2 S0]. unfold spherical_to_vector3. rewrite cos_acos by auto.
    assert (E : r * sin (acos (vz v / r)) = sqrt (vx v * vx v + vy v * vy v)).
    { symmetry. apply sqrt_lem_1; [apply hyp_sq|apply Rmult_le_pos; auto|].
      replace (r * sin (acos (vz v / r)) * (r * sin (acos (vz v / r)))) with (r * r * (sin (acos (vz v / r)) * sin (acos (vz v / r)))) by ring.
      rewrite S2. replace (r * r * (1 - vz v / r * (vz v / r))) with (r * r - vz v * vz v) by (field; lra). lra. }
    rewrite E. destruct (atan2_polar (vy v) (vx v)) as [PX PY]. fold phi in PX, PY. rewrite PX, PY. destruct v as [x y z]. cbn [vx vy vz] in *. f_equal. field. lra.
  - assert (D : forall th, vdot (spherical_to_vector3 r phi th) (spherical_to_vector3 r phi th) = r * r).
    { intros th. unfold vdot, spherical_to_vector3. cbn [vx vy vz]. pose proof (trig th) as T1. pose proof (trig phi) as T2.
      set (s := sin th) in *. set (c := cos th) in *. set (s2 := sin phi) in *. set (c2 := cos phi) in *.
      replace (r * s * c2 * (r * s * c2) + r * s * s2 * (r * s * s2) + r * c * (r * c)) with (r * r * (s * s * (s2 * s2 + c2 * c2) + c * c)) by ring.
      replace (s2 * s2 + c2 * c2) with 1 by lra. replace (s * s * 1 + c * c) with 1 by lra. ring. }
    unfold vnorm at 1. rewrite D. apply sqrt_square. auto.
Qed.
Print Assumptions C141_spherical.

Lemma same_polar a b : - PI < a <= PI -> - PI < b <= PI -> cos a = cos b -> sin a = sin b -> a = b.
Proof.
  intros A B C S. pose proof PI_RGT_0. assert (E : cos (a - b) = 1). { rewrite cos_minus, C, S. pose proof (trig b). lra. }
  assert (H2 : sin ((a - b) / 2) = 0).
  { destruct (half (a - b)) as [HC _]. pose proof (trig ((a - b) / 2)). assert (sin ((a - b) / 2) * sin ((a - b) / 2) = 0) as Z by lra. destruct (Rmult_integral _ _ Z); auto. }
  destruct (Rtotal_order a b) as [L|[L|L]]; auto; exfalso.
  - assert (0 < sin ((b - a) / 2)) by (apply sin_gt_0; lra). replace ((a - b) / 2) with (- ((b - a) / 2)) in H2 by field. rewrite sin_neg in H2. lra.
  - assert (0 < sin ((a - b) / 2)) by (apply sin_gt_0; lra). lra.
Qed.
(** Going from spherical coordinates and back. *)
Theorem C141_spherical_back r phi theta : 1 / 10 ^ 6 < r -> - PI < phi <= PI -> 0 < theta < PI ->
  vector3_to_spherical (spherical_to_vector3 r phi theta) = (r, phi, theta).
Proof.
  intros L P T. assert (T0 : 0 < 1 / 10 ^ 6) by (apply Rdiv_lt_0_compat; [lra|apply pow_lt; lra]).
  assert (ST : 0 < sin theta) by (apply sin_gt_0; lra). pose proof (trig theta) as T1. pose proof (trig phi) as T2.
  unfold vector3_to_spherical. cbv zeta. rewrite vnorm_form. unfold spherical_to_vector3. cbn [vx vy vz].
  assert (R : vnorm (mkV (r * sin theta * cos phi) (r * sin theta * sin phi) (r * cos theta)) = r).
  { unfold vnorm. apply sqrt_lem_1; [apply vdot_nonneg|lra|]. unfold vdot. cbn [vx vy vz].
    set (s := sin theta) in *. set (c := cos theta) in *. set (s2 := sin phi) in *. set (c2 := cos phi) in *.
    replace (r * s * c2 * (r * s * c2) + r * s * s2 * (r * s * s2) + r * c * (r * c)) with (r * r * (s * s * (s2 * s2 + c2 * c2) + c * c)) by ring.
    replace (s2 * s2 + c2 * c2) with 1 by lra. replace (s * s * 1 + c * c) with 1 by lra. ring. }
  rewrite R, (proj2 (Rltb_true _ _) L). replace (r * cos theta / r) with (cos theta) by (field; lra). rewrite acos_cos by lra. f_equal. f_equal.
  assert (K : 0 < r * sin theta) by (apply Rmult_lt_0_compat; lra). destruct (atan2_polar (r * sin theta * sin phi) (r * sin theta * cos phi)) as [PX PY].
  replace (r * sin theta * cos phi * (r * sin theta * cos phi) + r * sin theta * sin phi * (r * sin theta * sin phi)) with ((r * sin theta) * (r * sin theta)) in PX, PY.
  2:{ set (s2 := sin phi) in *. set (c2 := cos phi) in *. replace (r * sin theta * c2 * (r * sin theta * c2) + r * sin theta * s2 * (r * sin theta * s2)) with (r * sin theta * (r * sin theta) * (s2 * s2 + c2 * c2)) by ring.
      replace (s2 * s2 + c2 * c2) with 1 by lra. ring. }
  rewrite sqrt_square in PX, PY by lra. apply same_polar; [apply atan2_range|auto| |]; apply Rmult_eq_reg_l with (r * sin theta); lra.
Qed.
Print Assumptions C141_spherical_back.
(** A short vector comes back pointing up. *)
Theorem C141_spherical_short_refuted : exists v, let '(r, phi, theta) := vector3_to_spherical v in spherical_to_vector3 r phi theta <> v.
Proof.
  exists (mkV (1 / 10 ^ 7) 0 0). unfold vector3_to_spherical. cbv zeta. cbn [vx vy vz].
  replace ((1 / 10 ^ 7) ^ 2 + 0 ^ 2 + 0 ^ 2) with ((1 / 10 ^ 7) * (1 / 10 ^ 7)) by ring. rewrite sqrt_square by lra.
  rewrite (proj2 (Rltb_false _ _)) by lra. intros E. apply (f_equal vx) in E. cbn [spherical_to_vector3 vx] in E. rewrite sin_0 in E. lra.
Qed.
Print Assumptions C141_spherical_short_refuted.

(** ** Transforms *)
(** The motion that a transform with a unit quaternion stands for. *)
Definition apply (t : xform) (p : V3) : V3 := vadd (rotate_vector (x_rot t) p) (x_trans t).
Definition proper (t : xform) : Prop := qdot (x_rot t) (x_rot t) = 1.

Section Contract.
  Context (qm : quat -> M3) (qf : M3 -> quat) (inv : iso -> iso).
  (** What is assumed of tf.transformations and numpy.linalg: the matrix of a unit quaternion is its rotation matrix; the quaternion of a rotation matrix
      is a unit quaternion with that matrix; the inverse of the matrix of a rigid motion is an inverse on the left. *)
  Definition contract : Prop :=
    (forall q, qunit q -> qm q = qmat q) /\ (forall m, rotation m -> qunit (qf m) /\ qmat (qf m) = m) /\ (forall a, rigid a -> imul (inv a) a = iid).

  Lemma to_mat_apply t p : contract -> proper t -> iapp (to_mat qm t) p = apply t p.
  Proof. intros (M & _ & _) P. unfold to_mat, iapp, apply. cbn [irot itrans]. rewrite M by exact P. rewrite rotate_unit by exact P. reflexivity. Qed.
  Lemma to_mat_rigid t : contract -> proper t -> rigid (to_mat qm t).
  Proof. intros (M & _ & _) P. unfold rigid, to_mat. cbn [irot]. rewrite M by exact P. apply qmat_rot. exact P. Qed.
  Lemma from_mat_spec m p : contract -> rigid m -> proper (from_mat qf m) /\ apply (from_mat qf m) p = iapp m p.
  Proof.
    intros (_ & F & _) G. destruct (F (irot m) G) as [U E]. split; [exact U|]. unfold apply, from_mat, iapp. cbn [x_rot x_trans]. rewrite rotate_unit by exact U. rewrite E. reflexivity.
  Qed.
  Lemma inv_is a : contract -> rigid a -> inv a = iinv a.
  Proof.
    intros (_ & _ & I) G. assert (E : imul (imul (inv a) a) (iinv a) = imul iid (iinv a)) by (rewrite I; auto). rewrite imul_assoc, iinv_r in E by auto.
    rewrite imul_1_r, imul_1_l in E. exact E.
  Qed.
  Lemma iapp_mul a b p : iapp (imul a b) p = iapp a (iapp b p).
  Proof. unfold iapp, imul. cbn [irot itrans]. apply V3_eq; unf; ring. Qed.

  (** Composing with a point moves the point; composing transforms is moving by the second and then by the first; the inverse undoes the motion
      in both orders; all results are unit quaternions again. *)
Theorem C141_transforms t1 t2 p : contract -> proper t1 -> proper t2 ->
    compose_with_point qm t1 p = apply t1 p /\
    (proper (compose_transforms qm qf t1 t2) /\ apply (compose_transforms qm qf t1 t2) p = apply t1 (apply t2 p)) /\
    (let i := invert_transform qm qf inv t1 in proper i /\ apply i (apply t1 p) = p /\ apply t1 (apply i p) = p).
  Proof.
    intros C P1 P2. pose proof (to_mat_rigid t1 C P1) as G1. pose proof (to_mat_rigid t2 C P2) as G2. split; [apply to_mat_apply; auto|]. split.
    - unfold compose_transforms. assert (G : rigid (imul (to_mat qm t1) (to_mat qm t2))) by (apply rot_mul; auto).
      destruct (from_mat_spec _ p C G) as [U E]. split; auto. rewrite E, iapp_mul. rewrite !to_mat_apply; auto.
    - intros i. unfold i, invert_transform. rewrite inv_is by auto. assert (G : rigid (iinv (to_mat qm t1))) by (apply rigid_inv; auto).
      split; [apply (from_mat_spec _ p C G)|]. split.
      + rewrite (proj2 (from_mat_spec _ _ C G)). rewrite <- to_mat_apply by auto. rewrite <- iapp_mul, iinv_l by auto. unfold iapp, iid. apply V3_eq; unf; ring.
      + rewrite (proj2 (from_mat_spec _ _ C G)). rewrite <- to_mat_apply by auto. rewrite <- iapp_mul, iinv_r by auto. unfold iapp, iid. apply V3_eq; unf; ring.
  Qed.
  (** Matrices and transforms convert into each other without changing the motion. *)
Theorem C141_matrices t m p : contract -> proper t -> rigid m ->
    iapp (to_mat qm t) p = apply t p /\ apply (from_mat qf m) p = iapp m p /\ to_mat qm (from_mat qf m) = m.
  Proof.
    intros C P G. split; [apply to_mat_apply; auto|]. split; [apply from_mat_spec; auto|]. destruct C as (M & F & _). destruct (F (irot m) G) as [U E].
    unfold to_mat, from_mat. cbn [x_rot x_trans]. rewrite M, E by auto. destruct m; reflexivity.
  Qed.
  (** The transform of D-H parameters, with alpha in place of a. *)
Theorem C141_dh_transform d a theta alpha p : contract -> proper (transform_from_dh qf d a theta alpha) /\ apply (transform_from_dh qf d a theta alpha) p = iapp (dh d alpha theta alpha) p.
  Proof.
    intros C. destruct (C141_dh d a theta alpha) as (G & _ & E). unfold transform_from_dh. rewrite <- E. apply from_mat_spec; auto.
  Qed.
End Contract.
Print Assumptions C141_dh_transform.
Print Assumptions C141_transforms.
Print Assumptions C141_matrices.

(** The contract can be met, and a case of the hypotheses: half a turn about z after a move along x. *)
Example contract_met : contract qmat qfrom iinv.
Proof. split; [auto|]. split; [apply qfrom_spec|apply iinv_l]. Qed.
Example transform_case : exists t1 t2, proper t1 /\ proper t2 /\ apply t1 (apply t2 (mkV 0 0 0)) = mkV (-1) 0 0.
Proof.
  exists (mkX (mkV 0 0 0) (mkQ 0 0 0 1)), (mkX (mkV 1 0 0) (mkQ 1 0 0 0)). split; [unfold proper, qdot; cbn; ring|]. split; [unfold proper, qdot; cbn; ring|].
  unfold apply. cbn [x_rot x_trans]. rewrite !rotate_unit by (unfold qunit, qdot; cbn; ring). unfold qmat. apply V3_eq; unf; ring.
Qed.
