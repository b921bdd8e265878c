(** Conversions between Eigen and ROS messages (C134) and transforming pairs and vectors (C135). *)
From Coq Require Import String Reals Lra Lia Psatz.
From Flocq Require Import Core Relative.
From Verif Require Import Base MathModel GeoModel RotModel GeoAlg GeoProps RotProps RotDistProps MathProps ConvModel.
Open Scope R_scope.

(** A message whose quaternion has norm one. *)
Definition unit_msg (q : quaternion) : Prop := q_x q * q_x q + q_y q * q_y q + q_z q * q_z q + q_w q * q_w q = 1.
Definition same_or_opposite (p q : quaternion) : Prop :=
  p = q \/ p = mkQt (- q_x q) (- q_y q) (- q_z q) (- q_w q).

(** Points, vectors, quaternions: nothing is lost in either direction. *)
Theorem C134_fields :
  (forall p, eigen_to_point (point_to_eigen p) = p) /\ (forall v, point_to_eigen (eigen_to_point v) = v) /\
  (forall v, eigen_to_vector3 (vector3_to_eigen v) = v) /\ (forall v, vector3_to_eigen (eigen_to_vector3 v) = v) /\
  (forall q, eigen_to_quaternion (quaternion_to_eigen q) = q) /\ (forall q, quaternion_to_eigen (eigen_to_quaternion q) = q) /\
  (forall p, eigen4_to_point (point_to_eigen4 p) = p) /\ (forall v, eigen4_to_vector3 (vector3_to_eigen4 v) = v) /\
  (forall l, matrix_to_points (points_to_matrix l) = l) /\ (forall m, points_to_matrix (matrix_to_points m) = m).
Proof.
  repeat split; try (intros []; reflexivity).
  - intros l. unfold matrix_to_points, points_to_matrix. rewrite map_map, <- (map_id l) at 1. induction l as [|[] l IH]; cbn; [reflexivity|f_equal; assumption].
  - intros l. unfold matrix_to_points, points_to_matrix. rewrite map_map. induction l as [|[] l IH]; cbn; [reflexivity|f_equal; assumption].
Qed.
(** Homogeneous coordinates: a transform moves points and turns vectors.  4 x 4 matrix of an isometry times the vector. *)
Definition happ (a : iso) (v : V4) : V4 :=
  let w := vadd (mapp (irot a) (mkV (h_x v) (h_y v) (h_z v))) (vscale (h_w v) (itrans a)) in mkV4 (vx w) (vy w) (vz w) (h_w v).
Theorem C134_homogeneous : forall a p v,
  happ a (point_to_eigen4 p) = point_to_eigen4 (eigen_to_point (iapp a (point_to_eigen p))) /\
  happ a (vector3_to_eigen4 v) = vector3_to_eigen4 (eigen_to_vector3 (mapp (irot a) (vector3_to_eigen v))).
Proof.
  intros a p v. unfold happ, point_to_eigen4, vector3_to_eigen4, point_to_eigen, vector3_to_eigen, eigen_to_point, eigen_to_vector3. cbn [h_x h_y h_z h_w]. split; cbn; f_equal; ring.
Qed.
(** A rigid motion survives the way to a message and back. *)
Theorem C134_round_trip : forall a, rigid a ->
  pose_to_eigen (iso_to_pose a) = a /\ transform_to_eigen (iso_to_transform a) = a /\
  unit_msg (orientation (iso_to_pose a)) /\ unit_msg (rot (iso_to_transform a)) /\ rigid (pose_to_eigen (iso_to_pose a)).
Proof.
  intros a RA. destruct (qfrom_spec _ RA) as [U E]. assert (Q : mkQ (qw (qfrom (irot a))) (qx (qfrom (irot a))) (qy (qfrom (irot a))) (qz (qfrom (irot a))) = qfrom (irot a)) by (destruct (qfrom (irot a)); reflexivity).
  assert (T : mkV (vx (itrans a)) (vy (itrans a)) (vz (itrans a)) = itrans a) by (destruct (itrans a); reflexivity).
  assert (P : pose_to_eigen (iso_to_pose a) = a) by (unfold pose_to_eigen, iso_to_pose; cbn [position orientation p_x p_y p_z q_x q_y q_z q_w]; rewrite Q, T, E; destruct a; reflexivity).
  split; [exact P|]. split; [unfold transform_to_eigen, iso_to_transform; cbn [translation rot v_x v_y v_z q_x q_y q_z q_w]; rewrite Q, T, E; destruct a; reflexivity|]. unfold qdot in U.
  split; [unfold unit_msg; cbn; lra|]. split; [unfold unit_msg; cbn; lra|]. rewrite P. exact RA.
Qed.
Lemma same_matrix p q : qunit p -> qunit q -> qmat p = qmat q -> p = q \/ p = mkQ (- qw q) (- qx q) (- qy q) (- qz q).
Proof.
  destruct p as [a b c d], q as [e f g h]. unfold qunit, qdot, qmat. cbn. intros P Q E. injection E as E1 E2 E3 E4 E5 E6 E7 E8 E9.
  assert (F1 : a * a = e * e) by lra. assert (F2 : a * b = e * f) by lra. assert (F3 : a * c = e * g) by lra. assert (F4 : a * d = e * h) by lra.
  assert (F5 : b * b = f * f) by lra. assert (F6 : b * c = f * g) by lra. assert (F7 : b * d = f * h) by lra. assert (F8 : c * c = g * g) by lra. assert (F9 : c * d = g * h) by lra. assert (F10 : d * d = h * h) by lra.
  assert (S : forall x y z w, x * x = y * y -> x * z = y * w -> y <> 0 -> (x = y -> z = w) /\ (x = - y -> z = - w)).
  { intros x y z w X Z N. split; intros ->; apply (Rmult_eq_reg_l y); lra. }
  assert (D : forall x y, x * x = y * y -> x = y \/ x = - y).
  { intros x y X. assert (K : (x - y) * (x + y) = 0) by lra. apply Rmult_integral in K. destruct K; [left|right]; lra. }
  destruct (Req_dec e 0) as [Z0|N].
  2: { destruct (S a e b f F1 F2 N) as [B1 B2], (S a e c g F1 F3 N) as [C1 C2], (S a e d h F1 F4 N) as [G1 G2]. destruct (D a e F1) as [K|K]; [left|right]; f_equal; auto. }
  assert (A0 : a = 0) by (subst e; apply Rsqr_0_uniq; unfold Rsqr; lra). subst a e. destruct (Req_dec f 0) as [Z1|N].
  2: { destruct (S b f c g F5 F6 N) as [C1 C2], (S b f d h F5 F7 N) as [G1 G2]. destruct (D b f F5) as [K|K]; [left|right]; f_equal; auto; lra. }
  assert (B0 : b = 0) by (subst f; apply Rsqr_0_uniq; unfold Rsqr; lra). subst b f. destruct (Req_dec g 0) as [Z2|N].
  2: { destruct (S c g d h F8 F9 N) as [G1 G2]. destruct (D c g F8) as [K|K]; [left|right]; f_equal; auto; lra. }
  assert (C0 : c = 0) by (subst g; apply Rsqr_0_uniq; unfold Rsqr; lra). subst c g. destruct (D d h F10) as [K|K]; [left|right]; f_equal; lra.
Qed.
(** A message with a unit quaternion becomes a rigid motion and comes back, but for the sign of the quaternion. *)
Theorem C134_message_trip : forall p t, unit_msg (orientation p) -> unit_msg (rot t) ->
  rigid (pose_to_eigen p) /\ position (iso_to_pose (pose_to_eigen p)) = position p /\ same_or_opposite (orientation (iso_to_pose (pose_to_eigen p))) (orientation p) /\
  rigid (transform_to_eigen t) /\ translation (iso_to_transform (transform_to_eigen t)) = translation t /\ same_or_opposite (rot (iso_to_transform (transform_to_eigen t))) (rot t).
Proof.
  assert (G : forall x y z w, x * x + y * y + z * z + w * w = 1 -> rotation (qmat (mkQ w x y z)) /\ let q := qfrom (qmat (mkQ w x y z)) in same_or_opposite (mkQt (qx q) (qy q) (qz q) (qw q)) (mkQt x y z w)).
  { intros x y z w U. assert (QU : qunit (mkQ w x y z)) by (unfold qunit, qdot; cbn; lra). pose proof (qmat_rot _ QU) as RO. split; [exact RO|]. destruct (qfrom_spec _ RO) as [U' E]. cbv zeta. destruct (same_matrix _ _ U' QU E) as [K|K]; rewrite K; [left|right]; reflexivity. }
  intros [[a b c] [x y z w]] [[d e f] [x' y' z' w']] U1 U2. unfold unit_msg in *. cbn in U1, U2. destruct (G x y z w U1) as [R1 S1], (G x' y' z' w' U2) as [R2 S2]. cbv zeta in S1, S2. unfold rigid. auto 10.
Qed.
(** A quaternion that is not a unit is taken as it is: the result is an Isometry3d that is none. *)
Theorem C134_unnormalised_refuted : exists p, orientation p = mkQt 0 0 0 2 /\ rigid (pose_to_eigen p) /\ exists p', orientation p' = mkQt 1 1 0 0 /\ ~ rigid (pose_to_eigen p').
Proof.
  exists (mkPose (mkPt 0 0 0) (mkQt 0 0 0 2)). split; [reflexivity|]. split.
  - unfold rigid, rotation, pose_to_eigen, qmat. cbn. split; [apply M3_eq; cbn; ring|unf; ring].
  - exists (mkPose (mkPt 0 0 0) (mkQt 1 1 0 0)). split; [reflexivity|]. unfold rigid, rotation, pose_to_eigen, qmat. intros [H _]. apply (f_equal m00) in H. cbn in H. lra.
Qed.
(** The message ROS makes by default, all zeros, becomes the identity. *)
Theorem C134_default : pose_to_eigen (mkPose (mkPt 0 0 0) (mkQt 0 0 0 0)) = iid /\ transform_to_eigen (mkTf (mkV3 0 0 0) (mkQt 0 0 0 0)) = iid /\ forall t, transform_to_eigen (translation_to_transform t) = mkI mid t /\ rot (translation_to_transform t) = mkQt 0 0 0 1.
Proof.
  unfold pose_to_eigen, transform_to_eigen, translation_to_transform, qmat. cbn. repeat split; try (apply iso_eq; cbn; [apply M3_eq; cbn; ring|reflexivity]). destruct t. apply iso_eq; cbn; [apply M3_eq; cbn; ring|reflexivity].
Qed.
(** Affine transforms.  What rotation() gives: the rotation of the polar decomposition, when the determinant is positive. *)
Definition positive (s : M3) : Prop := mtrans s = s /\ forall v, 0 <= vdot v (mapp s v).
Definition polar_contract (polar : M3 -> M3) (m : M3) : Prop := 0 < mdet m -> rotation (polar m) /\ exists s, positive s /\ m = mmul (polar m) s.
Lemma positive_root s k : positive s -> 0 < k -> mmul s s = mscale mid (k * k) -> s = mscale mid k.
Proof.
  intros [S P] K E. assert (Z : forall v, msub s (mscale mid k) = msub s (mscale mid k) -> mapp (msub s (mscale mid k)) v = vzero).
  { intros v _. set (y := mapp (msub s (mscale mid k)) v). assert (Y : vadd (mapp s y) (vscale k y) = vzero).
    { subst y. assert (H : vadd (mapp s (mapp (msub s (mscale mid k)) v)) (vscale k (mapp (msub s (mscale mid k)) v)) = mapp (msub (mmul s s) (mscale mid (k * k))) v) by vring. rewrite H, E. vring. }
    specialize (P y). assert (D : vdot y (mapp s y) + k * vdot y y = 0).
    { transitivity (vdot y (vadd (mapp s y) (vscale k y))); [unf; ring|]. rewrite Y. unf. ring. }
    assert (N : 0 <= vdot y y) by (destruct y as [a b c]; unf; nra). assert (N0 : vdot y y = 0) by nra. destruct y as [a b c]. unf. apply V3_eq; cbn; nra. }
  pose proof (Z (mkV 1 0 0) eq_refl) as Z1. pose proof (Z (mkV 0 1 0) eq_refl) as Z2. pose proof (Z (mkV 0 0 1) eq_refl) as Z3. destruct s as [a b c d e f g h i]. unfold mapp, msub, mscale, mid, vzero in Z1, Z2, Z3. cbn in Z1, Z2, Z3. injection Z1 as H1 H2 H3. injection Z2 as H4 H5 H6. injection Z3 as H7 H8 H9. apply M3_eq; cbn; lra.
Qed.
(** A rigid motion as an affine transform survives; a uniform scale is lost without a word. *)
Lemma polar_scaled polar m k : polar_contract polar (mscale m k) -> rotation m -> 0 < k -> polar (mscale m k) = m.
Proof.
  intros C RM K. destruct C as (RP & s & PS & E).
  { destruct RM as [_ D]. assert (H : mdet (mscale m k) = k * k * k * mdet m) by (unf; ring). rewrite H, D. assert (0 < k * k) by nra. nra. }
  set (r := polar (mscale m k)) in *. clearbody r. pose proof (rot_left _ RP) as TL. pose proof (rot_left _ RM) as ML.
  assert (S : s = mscale mid k).
  { apply positive_root; [exact PS|exact K|]. assert (SS : mmul (mtrans s) s = mmul (mtrans (mscale m k)) (mscale m k)).
    { rewrite E. transitivity (mmul (mtrans s) (mmul (mmul (mtrans r) r) s)); [rewrite TL, mmul_1_l; reflexivity|mring]. }
    rewrite (proj1 PS) in SS. rewrite SS. transitivity (mscale (mmul (mtrans m) m) (k * k)); [mring|]. rewrite ML. reflexivity. }
  rewrite S in E. assert (F : mscale m k = mscale r k) by (rewrite E; mring). apply (f_equal (fun x => mscale x (/ k))) in F. assert (X : forall y, mscale (mscale y k) (/ k) = y) by (intros y; apply M3_eq; unf; field; lra). rewrite !X in F. congruence.
Qed.
Theorem C134_affine : forall polar a k, polar_contract polar (mscale (irot a) k) -> polar_contract polar (irot a) -> rigid a -> 0 < k ->
  pose_to_eigen (affine_to_pose polar (mkI (mscale (irot a) k) (itrans a))) = a /\ transform_to_eigen (affine_to_transform polar (mkI (mscale (irot a) k) (itrans a))) = a /\
  affine_to_pose polar a = iso_to_pose a /\ affine_to_transform polar a = iso_to_transform a.
Proof.
  intros polar a k C C1 RA K. destruct (C134_round_trip a RA) as (P1 & P2 & _). assert (E : affine_to_pose polar (mkI (mscale (irot a) k) (itrans a)) = iso_to_pose a) by (unfold affine_to_pose; cbn [irot itrans]; rewrite (polar_scaled polar (irot a) k C RA K); reflexivity).
  assert (E' : affine_to_transform polar (mkI (mscale (irot a) k) (itrans a)) = iso_to_transform a) by (unfold affine_to_transform; cbn [irot itrans]; rewrite (polar_scaled polar (irot a) k C RA K); reflexivity).
  rewrite E, E'. split; [exact P1|]. split; [exact P2|]. assert (O : polar (irot a) = irot a). { assert (M1 : mscale (irot a) 1 = irot a) by mring. rewrite <- M1 in C1. pose proof (polar_scaled polar (irot a) 1 C1 RA ltac:(lra)) as H. rewrite M1 in H. exact H. }
  unfold affine_to_pose, affine_to_transform. rewrite O. split; reflexivity.
Qed.
(** Some affine transforms are not what comes back. *)
Theorem C134_scale_refuted : exists a, forall polar, polar_contract polar (irot a) -> pose_to_eigen (affine_to_pose polar a) <> a /\ transform_to_eigen (affine_to_transform polar a) <> a.
Proof.
  assert (RI : rigid iid) by (split; [mring|unf; ring]). exists (mkI (mscale mid 2) vzero). intros polar C. cbn [irot] in C. pose proof (polar_scaled polar mid 2 C RI ltac:(lra)) as O. destruct (C134_round_trip iid RI) as (P1 & P2 & _). unfold affine_to_pose, affine_to_transform. cbn [irot itrans]. rewrite O. unfold iso_to_pose in P1. unfold iso_to_transform in P2. cbn [iid irot itrans] in P1, P2. rewrite P1, P2. split; intros H; apply (f_equal (fun x => m00 (irot x))) in H; cbn in H; lra.
Qed.
(** Vectors are converted element by element; stamped messages carry the frame. *)
Theorem C134_vectors : forall l ps ts (frame : string) a,
  (Forall rigid l -> poses_to_isos (isos_to_poses l) = l /\ transforms_to_isos (isos_to_transforms l) = l) /\
  (forall i p, nth_error ps i = Some p -> nth_error (poses_to_isos ps) i = Some (pose_to_eigen p)) /\ length (poses_to_isos ps) = length ps /\
  (forall i t, nth_error ts i = Some t -> nth_error (transforms_to_isos ts) i = Some (transform_to_eigen t)) /\ length (transforms_to_isos ts) = length ts /\
  frame_id (iso_to_pose_stamped a frame) = frame /\ payload (iso_to_pose_stamped a frame) = iso_to_pose a /\ frame_id (iso_to_transform_stamped a frame) = frame /\ payload (iso_to_transform_stamped a frame) = iso_to_transform a /\
  (forall f t, wrench_to_eigen (mkWr f t) = (vector3_to_eigen f, vector3_to_eigen t)).
Proof.
  intros l ps ts frame a. split; [|split; [intros; apply map_nth_error; assumption|split; [apply map_length|split; [intros; apply map_nth_error; assumption|split; [apply map_length|auto]]]]].
  intros F. unfold poses_to_isos, isos_to_poses, transforms_to_isos, isos_to_transforms. rewrite !map_map. induction F as [|x l RX F [IH1 IH2]]; [split; reflexivity|]. destruct (C134_round_trip x RX) as (P1 & P2 & _). cbn [map]. rewrite P1, P2. split; f_equal; assumption.
Qed.
(** The affine versions, given rigid motions, and the other vectors and stamped messages. *)
Theorem C134_affine_vectors : forall polar l frame a p vs m, Forall (fun a => rigid a /\ polar_contract polar (irot a)) l -> rigid a -> polar_contract polar (irot a) -> rotation m ->
  poses_to_isos (affines_to_poses polar l) = l /\ transforms_to_isos (affines_to_transforms polar l) = l /\
  frame_id (affine_to_pose_stamped polar a frame) = frame /\ pose_to_eigen (payload (affine_to_pose_stamped polar a frame)) = a /\
  frame_id (eigen_to_point_stamped p frame) = frame /\ point_to_eigen (payload (eigen_to_point_stamped p frame)) = p /\
  length (vectors_to_matrix vs) = length vs /\ (forall i v, nth_error vs i = Some v -> nth_error (vectors_to_matrix vs) i = Some (mkV (v_x v) (v_y v) (v_z v))) /\
  unit_msg (matrix_to_quaternion m) /\ qmat (quaternion_to_eigen (matrix_to_quaternion m)) = m.
Proof.
  intros polar l frame a p vs m F RA CA RM.
  assert (G : forall a, rigid a -> polar_contract polar (irot a) -> affine_to_pose polar a = iso_to_pose a /\ affine_to_transform polar a = iso_to_transform a).
  { intros b RB CB. assert (M1 : mscale (irot b) 1 = irot b) by mring. destruct (C134_affine polar b 1 ltac:(rewrite M1; exact CB) CB RB ltac:(lra)) as (_ & _ & H). exact H. }
  assert (GL : affines_to_poses polar l = isos_to_poses l /\ affines_to_transforms polar l = isos_to_transforms l /\ Forall rigid l).
  { unfold affines_to_poses, isos_to_poses, affines_to_transforms, isos_to_transforms. induction F as [|x l (RX & CX) F (IH1 & IH2 & IH3)]; [repeat split; constructor|].
    destruct (G x RX CX) as (E1 & E2). cbn [map]. rewrite E1, E2, IH1, IH2. repeat split; constructor; assumption. }
  destruct GL as (-> & -> & FR). destruct (C134_vectors l [] [] frame a) as (V & _). destruct (V FR) as (-> & ->). destruct (qfrom_spec _ RM) as [U E].
  split; [reflexivity|]. split; [reflexivity|]. split; [reflexivity|].
  split; [unfold affine_to_pose_stamped; cbn [payload]; rewrite (proj1 (G a RA CA)); apply (C134_round_trip a RA)|]. split; [reflexivity|].
  split; [destruct p; reflexivity|]. split; [apply map_length|]. split; [intros i v; apply (map_nth_error vector3_to_eigen)|].
  unfold matrix_to_quaternion. destruct (qfrom m) as [w x y z]. unfold qunit, qdot in U. cbn in U. split; [unfold unit_msg; cbn; lra|exact E].
Qed.
(** Built messages convert to what they were built from. *)
Theorem C134_builders : forall x y z qx' qy' qz' qw',
  let p := make_point x y z in let v := make_vector3 x y z in let q := make_quaternion qx' qy' qz' qw' in
  point_to_eigen p = mkV x y z /\ vector3_to_eigen v = mkV x y z /\ quaternion_to_eigen q = mkQ qw' qx' qy' qz' /\
  make_pose_v v q = make_pose p q /\ make_transform_p p q = make_transform v q /\
  pose_to_eigen (make_pose p q) = mkI (qmat (mkQ qw' qx' qy' qz')) (mkV x y z) /\ transform_to_eigen (make_transform v q) = pose_to_eigen (make_pose p q).
Proof. intros. repeat split; reflexivity. Qed.
(** Through float: a float comes back the same; a double loses at most half a unit in the 24th digit, or becomes infinite. *)
Definition is_float (x : R) : Prop := generic_format radix2 (FLT_exp (-149) 24) x /\ Rabs x < bpow radix2 128.
Theorem C134_float : forall x, 
  (is_float x -> narrow x = Some x) /\
  (forall y, narrow x = Some y -> is_float y /\ narrow y = Some y /\ (bpow radix2 (-126) <= Rabs x -> Rabs (y - x) <= / 2 ^ 24 * Rabs x)) /\
  (bpow radix2 128 <= Rabs x -> narrow x = None).
Proof.
  intros x. assert (V : Valid_exp (FLT_exp (-149) 24)) by (apply FLT_exp_valid; reflexivity). assert (ID : forall x, is_float x -> narrow x = Some x).
  { intros z [G L]. unfold narrow, float_round. rewrite round_generic by (try exact G; typeclasses eauto). destruct (Rltb (Rabs z) (bpow radix2 128)) eqn:T; [reflexivity|]. apply Rltb_false in T. lra. }
  split; [apply ID|]. split.
  - intros y E. unfold narrow in E. destruct (Rltb (Rabs (float_round x)) (bpow radix2 128)) eqn:T; [|discriminate]. injection E as <-. apply Rltb_spec in T. assert (F : is_float (float_round x)) by (split; [apply generic_format_round; typeclasses eauto|exact T]). split; [exact F|]. split; [apply ID; exact F|].
    intros B. pose proof (relative_error_N_FLT radix2 (-149) 24 ltac:(reflexivity) (fun z => negb (Z.even z)) x) as RE. unfold float_round. eapply Rle_trans; [apply RE; exact B|]. apply Rmult_le_compat_r; [apply Rabs_pos|]. cbn. lra.
  - intros B. unfold narrow. destruct (Rltb (Rabs (float_round x)) (bpow radix2 128)) eqn:T; [|reflexivity]. exfalso. apply Rltb_spec in T. assert (bpow radix2 128 <= Rabs (float_round x)); [|lra]. unfold float_round. apply abs_round_ge_generic; try typeclasses eauto; [|exact B]. apply generic_format_bpow. cbn. lia.
Qed.
Theorem C134_float_points : forall x y z,
  eigenf_to_point (x, y, z) = mkPt x y z /\ (is_float x -> is_float y -> is_float z -> point_to_eigenf (mkPt x y z) = (Some x, Some y, Some z)) /\
  (forall x' y' z', point_to_eigenf (mkPt x y z) = (Some x', Some y', Some z') -> narrow x = Some x' /\ narrow y = Some y' /\ narrow z = Some z').
Proof.
  intros x y z. split; [reflexivity|]. split.
  - intros X Y Z. unfold point_to_eigenf. cbn [p_x p_y p_z]. rewrite (proj1 (C134_float x) X), (proj1 (C134_float y) Y), (proj1 (C134_float z) Z). reflexivity.
  - intros x' y' z' E. unfold point_to_eigenf in E. cbn [p_x p_y p_z] in E. injection E as -> -> ->. auto.
Qed.
Theorem C134_float_refuted : exists p, point_to_eigenf p = (Some 1, Some 0, Some 0) /\ eigenf_to_point (1, 0, 0) <> p.
Proof.
  exists (mkPt (1 + bpow radix2 (-30)) 0 0). assert (V : Valid_exp (FLT_exp (-149) 24)) by (apply FLT_exp_valid; reflexivity). split.
  - unfold point_to_eigenf. cbn [p_x p_y p_z]. rewrite (proj1 (C134_float 0)) by (split; [apply generic_format_0|rewrite Rabs_R0; apply bpow_gt_0]).
    assert (E : float_round (1 + bpow radix2 (-30)) = 1).
    { apply Rle_antisym; [|rewrite <- (round_generic radix2 (FLT_exp (-149) 24) ZnearestE 1) at 1; [apply round_le; try typeclasses eauto; pose proof (bpow_gt_0 radix2 (-30)); lra | change 1 with (bpow radix2 0); apply generic_format_bpow; cbn; lia]].
      apply round_N_le_midp; try typeclasses eauto; [change 1 with (bpow radix2 0); apply generic_format_bpow; cbn; lia|]. rewrite succ_eq_pos by lra. change 1 with (bpow radix2 0) at 4. rewrite ulp_bpow. cbn. lra. }
    unfold narrow. rewrite E. destruct (Rltb (Rabs 1) (bpow radix2 128)) eqn:T; [reflexivity|]. apply Rltb_false in T. rewrite Rabs_R1 in T. assert (1 < bpow radix2 128) by (change 1 with (bpow radix2 0); apply bpow_lt; lia). lra.
  - intros H. apply (f_equal p_x) in H. cbn [eigenf_to_point p_x] in H. pose proof (bpow_gt_0 radix2 (-30)). lra.
Qed.
(** A quarter turn with an offset goes there and back. *)
Example conversion_case : let q := mkQt 0 0 (sqrt 2 / 2) (sqrt 2 / 2) in unit_msg q /\ rigid (mkI (mkM 0 (-1) 0 1 0 0 0 0 1) (mkV 1 2 3)) /\ is_float (bpow radix2 100) /\
  polar_contract (fun _ => mid) (mscale mid 3) /\ polar_contract (fun _ => mid) mid.
Proof.
  cbv zeta. assert (S : sqrt 2 * sqrt 2 = 2) by (apply sqrt_sqrt; lra). assert (V : Valid_exp (FLT_exp (-149) 24)) by (apply FLT_exp_valid; reflexivity). split; [unfold unit_msg; cbn; nra|]. split; [split; [mring|unf; ring]|]. split; [split; [apply generic_format_bpow; cbn; lia|rewrite Rabs_pos_eq by apply bpow_ge_0; apply bpow_lt; lia]|]. assert (P : forall k, 0 <= k -> positive (mscale mid k)) by (intros k K; split; [mring|]; intros [x y z]; unf; nra).
  assert (RI : rotation mid) by (split; [mring|unf; ring]). split; intros _; (split; [exact RI|]); [exists (mscale mid 3); split; [apply P; lra|mring]|exists (mscale mid 1); split; [apply P; lra|mring]].
Qed.

(** ** Transforming pairs and vectors (C135) *)
Theorem C135_laws : forall a b l ps, 
  transform_points (imul a b) l = transform_points a (transform_points b l) /\ transform_points iid l = l /\ (rigid a -> transform_points (iinv a) (transform_points a l) = l) /\
  transform_poses (imul a b) ps = transform_poses a (transform_poses b ps) /\ transform_poses iid ps = ps /\ (rigid a -> transform_poses (iinv a) (transform_poses a ps) = ps) /\
  length (transform_points a l) = length l /\ (forall i p, nth_error l i = Some p -> nth_error (transform_points a l) i = Some (iapp a p)).
Proof.
  intros a b l ps. unfold transform_points, transform_poses. rewrite !map_map. assert (II : rigid a -> imul (iinv a) a = iid).
  { intros RA. apply iso_eq; [apply (rot_left _ RA)|]. cbn [imul iinv itrans iid]. vring. }
  split; [apply map_ext; intros p; vring|]. split; [rewrite <- (map_id l) at 2; apply map_ext; intros []; vring|]. split; [intros RA; rewrite <- (map_id l) at 2; apply map_ext; intros p; transitivity (iapp (imul (iinv a) a) p); [vring|rewrite II by exact RA; destruct p; vring]|].
  split; [apply map_ext; intros p; apply imul_assoc|]. split; [rewrite <- (map_id ps) at 2; apply map_ext; intros p; apply imul_1_l|]. split; [intros RA; rewrite <- (map_id ps) at 2; apply map_ext; intros p; rewrite <- imul_assoc, II by exact RA; apply imul_1_l|].
  split; [apply map_length|]. intros i p. apply map_nth_error.
Qed.
(** Distances of points are kept; a pair of a pose and a point is moved together; translations are moved as points and get the rotation. *)
Theorem C135_rigid : forall a p q x, rigid a ->
  vdistance (iapp a p) (iapp a q) = vdistance p q /\
  (let '(x', p') := transform_pose_point a (x, p) in iapp (iinv x') p' = iapp (iinv x) p) /\
  (let '(s, t) := transform_translations a (p, q) in itrans s = iapp a p /\ itrans t = iapp a q /\ irot s = irot a /\ irot t = irot a).
Proof.
  intros a p q x RA. split; [|split].
  - unfold vdistance. replace (vsub (iapp a q) (iapp a p)) with (mapp (irot a) (vsub q p)) by vring. apply rot_norm. exact RA.
  - cbn [transform_pose_point transform_pair fst snd]. pose proof (rot_left _ RA) as TL. set (v := vsub p (itrans x)).
    transitivity (mapp (mtrans (irot x)) (mapp (mmul (mtrans (irot a)) (irot a)) v)); [unfold v; vring|]. rewrite TL. unfold v. vring.
  - cbn. split; [vring|]. split; [vring|]. split; mring.
Qed.
Print Assumptions C134_fields. Print Assumptions C134_homogeneous. Print Assumptions C134_round_trip. Print Assumptions C134_message_trip. Print Assumptions C134_unnormalised_refuted. Print Assumptions C134_default. Print Assumptions C134_affine. Print Assumptions C134_scale_refuted. Print Assumptions C134_vectors. Print Assumptions C134_builders. Print Assumptions C134_affine_vectors. Print Assumptions C134_float_points. Print Assumptions C134_float. Print Assumptions C134_float_refuted. Print Assumptions C135_laws. Print Assumptions C135_rigid.
