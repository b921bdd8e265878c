(** C99, C100, C101: distances between rotations, interpolation of rotations, roll-pitch-yaw. *)
From Coq Require Import Reals Lra Bool.
From Verif Require Import Base MathModel TotpVec GeoModel GeoAlg RotModel GeoProps.
Open Scope R_scope.

(** ** atan2 *)
Lemma atan2_range y x : - PI < atan2 y x <= PI.
Proof.
  pose proof PI_RGT_0. unfold atan2. destruct (Rltb 0 x) eqn:P; [pose proof (atan_bound (y / x)); lra|]. apply Rltb_false in P.
  destruct (Rltb x 0) eqn:N.
  - apply Rltb_true in N. pose proof (atan_bound (y / x)). destruct (Rleb 0 y) eqn:Y.
    + apply Rleb_true in Y. assert (y / x <= 0). { unfold Rdiv. assert (/ x < 0) by (apply Rinv_lt_0_compat; exact N). nra. }
      assert (atan (y / x) <= 0). { destruct H1 as [H1|H1]; [rewrite <- atan_0; left; apply atan_increasing; exact H1 | rewrite H1, atan_0; lra]. } lra.
    + apply Rleb_false in Y. assert (0 < y / x). { unfold Rdiv. assert (/ x < 0) by (apply Rinv_lt_0_compat; exact N). nra. }
      assert (0 < atan (y / x)) by (rewrite <- atan_0; apply atan_increasing; exact H1). lra.
  - destruct (Rltb 0 y); [lra|]. destruct (Rltb y 0); lra.
Qed.
Lemma cos_atan z : cos (atan z) = / sqrt (1 + z * z) /\ sin (atan z) = z / sqrt (1 + z * z).
Proof.
  assert (P : 0 < 1 + z * z) by (pose proof (Rle_0_sqr z); unfold Rsqr in *; lra). assert (Q : 0 < sqrt (1 + z * z)) by (apply sqrt_lt_R0; exact P).
  pose proof (atan_bound z) as B. assert (C : 0 < cos (atan z)) by (apply cos_gt_0; lra).
  assert (T : sin (atan z) = z * cos (atan z)) by (pose proof (tan_atan z) as T; unfold tan in T; rewrite <- T at 2; field; lra).
  assert (E : cos (atan z) = / sqrt (1 + z * z)).
  { apply Rmult_eq_reg_r with (sqrt (1 + z * z)); [|lra]. rewrite Rinv_l by lra. pose proof (trig (atan z)) as U. rewrite T in U.
    assert (S2 : sqrt (1 + z * z) * sqrt (1 + z * z) = 1 + z * z) by (apply sqrt_sqrt; lra). set (c := cos (atan z)) in *. set (s := sqrt (1 + z * z)) in *.
    assert (F : (c * s) * (c * s) = 1) by nra. assert (0 < c * s) by (apply Rmult_lt_0_compat; assumption). nra. }
  split; [exact E|]. rewrite T, E. reflexivity.
Qed.
Lemma hyp_sq y x : 0 <= x * x + y * y.
Proof. pose proof (Rle_0_sqr x). pose proof (Rle_0_sqr y). unfold Rsqr in *. lra. Qed.
Lemma atan2_polar y x : sqrt (x * x + y * y) * cos (atan2 y x) = x /\ sqrt (x * x + y * y) * sin (atan2 y x) = y.
Proof.
  assert (Main : forall x, x <> 0 -> sqrt (x * x + y * y) * cos (atan (y / x)) = Rabs x /\ sqrt (x * x + y * y) * sin (atan (y / x)) = y * (Rabs x / x)).
  { clear x. intros x N. destruct (cos_atan (y / x)) as [C S1]. rewrite C, S1.
    assert (E : sqrt (x * x + y * y) = Rabs x * sqrt (1 + y / x * (y / x))).
    { rewrite <- (sqrt_Rsqr_abs x), <- sqrt_mult_alt by apply Rle_0_sqr. f_equal. unfold Rsqr. field. exact N. }
    rewrite E. assert (Q : 0 < sqrt (1 + y / x * (y / x))). { apply sqrt_lt_R0. pose proof (Rle_0_sqr (y / x)). unfold Rsqr in *. lra. }
    split; field; [|split]; lra. }
  unfold atan2. destruct (Rltb 0 x) eqn:P.
  - apply Rltb_true in P. destruct (Main x ltac:(lra)) as [A B]. rewrite Rabs_right in A, B by lra. split; [exact A|]. rewrite B. field. lra.
  - apply Rltb_false in P. destruct (Rltb x 0) eqn:N.
    + apply Rltb_true in N. destruct (Main x ltac:(lra)) as [A B]. rewrite Rabs_left in A, B by lra.
      assert (B' : sqrt (x * x + y * y) * sin (atan (y / x)) = - y) by (rewrite B; field; lra).
      destruct (Rleb 0 y); [rewrite neg_cos, neg_sin | unfold Rminus; rewrite cos_plus, sin_plus, cos_neg, sin_neg, cos_PI, sin_PI]; split; lra.
    + apply Rltb_false in N. assert (x = 0) as -> by lra. replace (0 * 0 + y * y) with (y * y) by ring.
      destruct (Rltb 0 y) eqn:Y; [|destruct (Rltb y 0) eqn:Y'].
      * apply Rltb_true in Y. rewrite cos_PI2, sin_PI2, sqrt_square by lra. split; ring.
      * apply Rltb_true in Y'. rewrite cos_neg, sin_neg, cos_PI2, sin_PI2. replace (y * y) with ((- y) * (- y)) by ring. rewrite sqrt_square by lra. split; ring.
      * apply Rltb_false in Y. apply Rltb_false in Y'. assert (y = 0) as -> by lra. rewrite Rmult_0_r, sqrt_0. split; ring.
Qed.

(** * C101 *)
(** The rotations about the axes, written out. *)
Definition rot_x (a : R) : M3 := mkM 1 0 0 0 (cos a) (- sin a) 0 (sin a) (cos a).
Definition rot_y (a : R) : M3 := mkM (cos a) 0 (sin a) 0 1 0 (- sin a) 0 (cos a).
Definition rot_z (a : R) : M3 := mkM (cos a) (- sin a) 0 (sin a) (cos a) 0 0 0 1.
Lemma half a : cos a = cos (a / 2) * cos (a / 2) - sin (a / 2) * sin (a / 2) /\ sin a = 2 * (sin (a / 2) * cos (a / 2)).
Proof. split; [replace a with (a / 2 + a / 2) at 1 by lra; rewrite cos_plus | replace a with (a / 2 + a / 2) at 1 by lra; rewrite sin_plus]; ring. Qed.
Lemma qdot_qmul a b : qdot (qmul a b) (qmul a b) = qdot a a * qdot b b. Proof. unf; ring. Qed.
Lemma qaxis_unit t u : vdot u u = 1 -> qdot (qaxis t u) (qaxis t u) = 1.
Proof. intros U. pose proof (trig (t / 2)) as T. unfold qaxis. unf. set (s := sin (t / 2)) in *. set (c := cos (t / 2)) in *. replace (_ + _ + _ + _) with (c * c + s * s * (vx u * vx u + vy u * vy u + vz u * vz u)) by ring. rewrite U. lra. Qed.
Lemma qmat_mul a b : qdot a a = 1 -> qdot b b = 1 -> qmat (qmul a b) = mmul (qmat a) (qmat b).
Proof.
  intros A B. assert (P : qdot (qmul a b) (qmul a b) = 1) by (rewrite qdot_qmul, A, B; ring).
  destruct (C98_rotate a ltac:(rewrite A; lra)) as (_ & _ & _ & _ & Ma & Ua). destruct (C98_rotate b ltac:(rewrite B; lra)) as (_ & _ & _ & _ & _ & Ub).
  destruct (C98_rotate (qmul a b) ltac:(rewrite P; lra)) as (_ & _ & _ & _ & _ & Uab).
  assert (X : forall v, mapp (qmat (qmul a b)) v = mapp (mmul (qmat a) (qmat b)) v).
  { intros v. rewrite <- Uab by exact P. rewrite Ma by (rewrite B; lra). rewrite Ua by exact A. rewrite Ub by exact B. symmetry. apply mapp_mmul. }
  pose proof (X (mkV 1 0 0)) as X1. pose proof (X (mkV 0 1 0)) as X2. pose proof (X (mkV 0 0 1)) as X3. revert X1 X2 X3.
  generalize (qmat (qmul a b)) (mmul (qmat a) (qmat b)). clear. intros p q X1 X2 X3. unfold mapp in *; cbn [vx vy vz] in *.
  injection X1 as A1 A2 A3. injection X2 as B1 B2 B3. injection X3 as D1 D2 D3. apply M3_eq; lra.
Qed.
Lemma qmat_x a : qmat (qaxis a ux) = rot_x a.
Proof. destruct (half a) as [C S1]. pose proof (trig (a / 2)) as T. unfold qmat, qaxis, ux, rot_x. unf. rewrite C, S1. generalize dependent (sin (a / 2)). generalize (cos (a / 2)). intros c s C S1 T. apply M3_eq; cbn; nra. Qed.
Lemma qmat_y a : qmat (qaxis a uy) = rot_y a.
Proof. destruct (half a) as [C S1]. pose proof (trig (a / 2)) as T. unfold qmat, qaxis, uy, rot_y. unf. rewrite C, S1. generalize dependent (sin (a / 2)). generalize (cos (a / 2)). intros c s C S1 T. apply M3_eq; cbn; nra. Qed.
Lemma qmat_z a : qmat (qaxis a uz) = rot_z a.
Proof. destruct (half a) as [C S1]. pose proof (trig (a / 2)) as T. unfold qmat, qaxis, uz, rot_z. unf. rewrite C, S1. generalize dependent (sin (a / 2)). generalize (cos (a / 2)). intros c s C S1 T. apply M3_eq; cbn; nra. Qed.
Lemma axes_unit : vdot ux ux = 1 /\ vdot uy uy = 1 /\ vdot uz uz = 1.
Proof. unfold ux, uy, uz. unf. repeat split; lra. Qed.
Lemma rot_x_rot a : rotation (rot_x a).
Proof. pose proof (trig a) as T. unfold rot_x. split; [apply M3_eq; unf; lra | unf; lra]. Qed.
Lemma rot_y_rot a : rotation (rot_y a).
Proof. pose proof (trig a) as T. unfold rot_y. split; [apply M3_eq; unf; lra | unf; lra]. Qed.
Lemma rot_z_rot a : rotation (rot_z a).
Proof. pose proof (trig a) as T. unfold rot_z. split; [apply M3_eq; unf; lra | unf; lra]. Qed.
(** The quaternions are of unit length and rotate by the product of the rotations about the axes: x first on the left for QuaternionFromRPY, z first for
    the URDF convention. *)
Theorem C101_quaternions r p y :
  qdot (quat_rpy r p y) (quat_rpy r p y) = 1 /\ qmat (quat_rpy r p y) = mmul (mmul (rot_x r) (rot_y p)) (rot_z y) /\
  qdot (quat_urdf_rpy r p y) (quat_urdf_rpy r p y) = 1 /\ qmat (quat_urdf_rpy r p y) = mmul (mmul (rot_z y) (rot_y p)) (rot_x r).
Proof.
  destruct axes_unit as (X & Y & Z). pose proof (qaxis_unit r _ X) as A. pose proof (qaxis_unit p _ Y) as B. pose proof (qaxis_unit y _ Z) as C.
  assert (AB : qdot (qmul (qaxis r ux) (qaxis p uy)) (qmul (qaxis r ux) (qaxis p uy)) = 1) by (rewrite qdot_qmul, A, B; ring).
  assert (CB : qdot (qmul (qaxis y uz) (qaxis p uy)) (qmul (qaxis y uz) (qaxis p uy)) = 1) by (rewrite qdot_qmul, C, B; ring).
  unfold quat_rpy, quat_urdf_rpy. repeat split.
  - rewrite qdot_qmul, AB, C. ring.
  - rewrite !qmat_mul by assumption. rewrite qmat_x, qmat_y, qmat_z. reflexivity.
  - rewrite qdot_qmul, CB, A. ring.
  - rewrite !qmat_mul by assumption. rewrite qmat_x, qmat_y, qmat_z. reflexivity.
Qed.
Print Assumptions C101_quaternions.
(** The angles of a rotation matrix give it back; the first is in [0, pi], the others in [-pi, pi]. *)
Lemma euler_core m a b c rho : rotation m -> 
  m12 m * cos a + m22 m * sin a = 0 -> m22 m * cos a - m12 m * sin a = rho -> sin b = m02 m -> cos b = rho ->
  sin c = sin a * m20 m + cos a * m10 m -> cos c = cos a * m11 m + sin a * m21 m ->
  mmul (mmul (rot_x a) (rot_y b)) (rot_z c) = m.
Proof.
  intros H E1 E2 Sb Cb Sc Cc. set (n := mmul (rot_x (- a)) m).
  assert (Hn : rotation n) by (apply rot_mul; [apply rot_x_rot | exact H]).
  assert (Em : m = mmul (rot_x a) n).
  { unfold n. rewrite <- mmul_assoc. assert (E : mmul (rot_x a) (rot_x (- a)) = mid). { pose proof (trig a) as T. unfold rot_x. apply M3_eq; unf; rewrite ?cos_neg, ?sin_neg; lra. } rewrite E, mmul_1_l. reflexivity. }
  rewrite mmul_assoc. rewrite Em. f_equal.
  assert (N02 : m02 n = sin b) by (unfold n, rot_x; unf; rewrite Sb; lra).
  assert (N10 : m10 n = sin c) by (unfold n, rot_x; unf; rewrite cos_neg, sin_neg, Sc; lra).
  assert (N11 : m11 n = cos c) by (unfold n, rot_x; unf; rewrite cos_neg, sin_neg, Cc; lra).
  assert (N12 : m12 n = 0) by (unfold n, rot_x; unf; rewrite cos_neg, sin_neg; lra).
  assert (N22 : m22 n = cos b) by (unfold n, rot_x; unf; rewrite cos_neg, sin_neg, Cb; lra).
  clearbody n. pose proof (rot_cofactor n Hn) as K. destruct n as [n00 n01 n02 n10 n11 n12 n20 n21 n22]. unfold mtrans in K. cbn in *. injection K as K0 K1 K2 K3 K4 K5 K6 K7 K8. subst.
  unfold rot_y, rot_z. apply M3_eq; unf; lra.
Qed.
Theorem C101_euler m : rotation m ->
  let e := euler_angles m in
  mmul (mmul (rot_x (vx e)) (rot_y (vy e))) (rot_z (vz e)) = m /\ 0 <= vx e <= PI /\ - PI <= vy e <= PI /\ - PI <= vz e <= PI.
Proof.
  intros H e. pose proof PI_RGT_0 as PI0. pose proof (atan2_range (m12 m) (m22 m)) as R0. destruct (atan2_polar (m12 m) (m22 m)) as [Pc Ps].
  set (rho := sqrt (m22 m * m22 m + m12 m * m12 m)) in *.
  assert (C2 : sqrt (m00 m * m00 m + m01 m * m01 m) = rho /\ m02 m * m02 m + rho * rho = 1).
  { pose proof (rot_left m H) as L. destruct H as [O _]. unfold rho. rewrite sqrt_sqrt by apply hyp_sq. unfold mmul, mtrans, mid in O, L. cbn in O, L. injection O as O0. injection L as L0. split; [f_equal|]; lra. }
  destruct C2 as [C2 U]. unfold e, euler_angles. rewrite C2.
  assert (Fin : forall r0 k b, (m12 m * cos r0 - m22 m * sin r0 = 0) -> (m22 m * cos r0 + m12 m * sin r0 = k * rho) -> (k = 1 \/ k = -1) -> - PI <= r0 <= 0 -> b = - atan2 (- m02 m) (k * rho) ->
     let r2 := atan2 (sin r0 * m20 m - cos r0 * m10 m) (cos r0 * m11 m - sin r0 * m21 m) in
     mmul (mmul (rot_x (- r0)) (rot_y b)) (rot_z (- r2)) = m /\ 0 <= - r0 <= PI /\ - PI <= b <= PI /\ - PI <= - r2 <= PI).
  { intros r0 k b E1 E2 K Rg Eb r2. pose proof (atan2_range (- m02 m) (k * rho)) as Rb. destruct (atan2_polar (- m02 m) (k * rho)) as [Bc Bs].
    replace (k * rho * (k * rho) + - m02 m * - m02 m) with 1 in Bc, Bs by (destruct K as [-> | ->]; lra). rewrite sqrt_1, Rmult_1_l in Bc, Bs.
    pose proof (atan2_range (sin r0 * m20 m - cos r0 * m10 m) (cos r0 * m11 m - sin r0 * m21 m)) as Rc.
    destruct (atan2_polar (sin r0 * m20 m - cos r0 * m10 m) (cos r0 * m11 m - sin r0 * m21 m)) as [Cc Cs].
    assert (One : (cos r0 * m11 m - sin r0 * m21 m) * (cos r0 * m11 m - sin r0 * m21 m) + (sin r0 * m20 m - cos r0 * m10 m) * (sin r0 * m20 m - cos r0 * m10 m) = 1).
    { assert (Hn : rotation (mmul (rot_x r0) m)) by (apply rot_mul; [apply rot_x_rot | exact H]). destruct Hn as [On _].
      apply (f_equal m11) in On. unfold rot_x in On. unf. replace (0 * m02 m + cos r0 * m12 m + - sin r0 * m22 m) with 0 in On by lra. lra. }
    rewrite One, sqrt_1, Rmult_1_l in Cc, Cs. fold r2 in Cc, Cs, Rc. split; [|split; [lra | split; [subst b; lra | lra]]].
    apply (euler_core m (- r0) b (- r2) (k * rho)); [exact H| | | | | |]; rewrite ?cos_neg, ?sin_neg; try lra.
    - subst b. rewrite sin_neg. lra.
    - subst b. rewrite cos_neg. exact Bc. }
  destruct (Rltb 0 (atan2 (m12 m) (m22 m))) eqn:B.
  - apply Rltb_true in B. set (r := atan2 (m12 m) (m22 m)) in *. cbn [vx vy vz].
    apply (Fin (r - PI) (-1) (- atan2 (- m02 m) (- rho))).
    + unfold Rminus. rewrite cos_plus, sin_plus, cos_neg, sin_neg, cos_PI, sin_PI. rewrite <- Pc, <- Ps. ring.
    + unfold Rminus. rewrite cos_plus, sin_plus, cos_neg, sin_neg, cos_PI, sin_PI. pose proof (trig r) as T. rewrite <- Pc, <- Ps.
      replace (_ + _) with (- (rho * (sin r * sin r + cos r * cos r))) by ring. rewrite T. ring.
    + right; reflexivity.
    + lra.
    + f_equal. f_equal. ring.
  - apply Rltb_false in B. set (r := atan2 (m12 m) (m22 m)) in *. cbn [vx vy vz].
    apply (Fin r 1 (- atan2 (- m02 m) rho)).
    + rewrite <- Pc, <- Ps. ring.
    + pose proof (trig r) as T. rewrite <- Pc, <- Ps. replace (_ + _) with (rho * (sin r * sin r + cos r * cos r)) by ring. rewrite T. ring.
    + left; reflexivity.
    + lra.
    + f_equal. f_equal. ring.
Qed.
Print Assumptions C101_euler.
Lemma qmat_rotation q : qdot q q = 1 -> rotation (qmat q).
Proof.
  intros H. assert (E : qmat (qmul q (qconj q)) = mid). { replace (qmul q (qconj q)) with (mkQ (qdot q q) 0 0 0) by (apply Q_eq; unf; ring). rewrite H. unfold qmat. apply M3_eq; unf; ring. }
  assert (U : qdot (qconj q) (qconj q) = 1) by (rewrite <- H; unf; ring).
  rewrite qmat_mul in E by assumption. assert (T : qmat (qconj q) = mtrans (qmat q)) by (unfold qmat; apply M3_eq; unf; ring). rewrite T in E. split; [exact E|].
  replace (mdet (qmat q)) with (1 + 4 * (qx q * qx q + qy q * qy q + qz q * qz q) * (qdot q q - 1)) by (unfold qmat; unf; ring). rewrite H. ring.
Qed.
(** EulerAnglesFromQuaternion: the angles of a unit quaternion turn like it. *)
Theorem C101_euler_quaternion q : qdot q q = 1 ->
  let e := euler_quat q in
  mmul (mmul (rot_x (vx e)) (rot_y (vy e))) (rot_z (vz e)) = qmat q /\ 0 <= vx e <= PI /\ - PI <= vy e <= PI /\ - PI <= vz e <= PI.
Proof. intros H. apply C101_euler. apply qmat_rotation. exact H. Qed.
Print Assumptions C101_euler_quaternion.
(** TransformFromRPY undoes TransformToRPY on rigid transforms. *)
Theorem C101_round_trip a : rigid a -> let '(x, y, z, r, p, w) := rpy_of a in transform_rpy x y z r p w = a.
Proof.
  intros H. unfold rpy_of, transform_rpy. destruct (C101_euler (irot a) H) as [E _]. destruct (C101_quaternions (vx (euler_angles (irot a))) (vy (euler_angles (irot a))) (vz (euler_angles (irot a)))) as (_ & Q & _).
  rewrite Q, E. apply iso_eq; cbn; [reflexivity|]. apply V3_eq; reflexivity.
Qed.
Print Assumptions C101_round_trip.
(** The other way round only up to the choice of angles: the rotation is the same, the angles need not be. *)
Theorem C101_same_transform_partial x y z r p w : let '(x', y', z', r', p', w') := rpy_of (transform_rpy x y z r p w) in
  x' = x /\ y' = y /\ z' = z /\ transform_rpy x' y' z' r' p' w' = transform_rpy x y z r p w.
Proof.
  assert (H : rigid (transform_rpy x y z r p w)).
  { unfold rigid, transform_rpy. cbn. destruct (C101_quaternions r p w) as (_ & -> & _). apply rot_mul; [apply rot_mul|]; [apply rot_x_rot | apply rot_y_rot | apply rot_z_rot]. }
  pose proof (C101_round_trip _ H) as E. unfold rpy_of in *. cbn in *. auto.
Qed.
Print Assumptions C101_same_transform_partial.
Theorem C101_angles_refuted : exists r p w, - PI < r < PI /\ - (PI / 2) < p < PI / 2 /\ - PI < w < PI /\
  let '(_, _, _, r', p', w') := rpy_of (transform_rpy 0 0 0 r p w) in r' <> r.
Proof.
  pose proof PI_RGT_0. exists (- (PI / 2)), 0, 0. repeat split; try lra. unfold rpy_of, transform_rpy. cbn [irot itrans].
  assert (R : rotation (qmat (quat_rpy (- (PI / 2)) 0 0))). { destruct (C101_quaternions (- (PI / 2)) 0 0) as (_ & -> & _). apply rot_mul; [apply rot_mul|]; [apply rot_x_rot | apply rot_y_rot | apply rot_z_rot]. }
  destruct (C101_euler _ R) as (_ & B & _). lra.
Qed.
Print Assumptions C101_angles_refuted.
Example rpy_case : rotation (rot_x 2) /\ rigid (transform_rpy 1 2 3 (/ 2) (/ 3) (/ 4)).
Proof.
  split; [apply rot_x_rot|]. unfold rigid, transform_rpy. cbn. destruct (C101_quaternions (/ 2) (/ 3) (/ 4)) as (_ & -> & _). apply rot_mul; [apply rot_mul|]; [apply rot_x_rot | apply rot_y_rot | apply rot_z_rot].
Qed.
