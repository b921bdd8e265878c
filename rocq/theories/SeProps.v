(** The planar robot of simple_se2_robot_model.hpp (C121). *)
From Coq Require Import String Reals Lra Lia.
From Coquelicot Require Import Coquelicot.
From Verif Require Import Base MathModel TotpModel TotpVec MathProps EVecModel ELinModel EAngleProps GeoModel GeoAlg GeoProps RotModel RotProps RotDistProps SeModel.
From Coq Require Import List.
Import ListNotations.
Open Scope R_scope.

(** ** Specification *)
(** The pose of the configuration (x, y, angle): turned by the angle about the third axis, then moved to (x, y, 0). *)
Definition pose2 (c : V3) : iso := mkI (rot_z (vz c)) (mkV (vx c) (vy c) 0).
(** The distance of two poses with given weights: of the positions, and the smallest angle that takes the one rotation to the other. *)
Definition weighted (wp wr : R) (a b : iso) : R := wp * vnorm (vsub (itrans b) (itrans a)) + wr * mdistance (irot a) (irot b).

Lemma vnorm_triangle a b : vnorm (vadd a b) <= vnorm a + vnorm b.
Proof.
  pose proof (vnorm_nonneg a) as A. pose proof (vnorm_nonneg b) as B. pose proof (vnorm_nonneg (vadd a b)) as C.
  assert (CS : vdot a b <= vnorm a * vnorm b).
  { apply Rnot_lt_le. intros L. assert (Q : (vnorm a * vnorm b) * (vnorm a * vnorm b) < vdot a b * vdot a b) by (apply Rmult_le_0_lt_compat; try lra; apply Rmult_le_pos; assumption).
    replace ((vnorm a * vnorm b) * (vnorm a * vnorm b)) with ((vnorm a * vnorm a) * (vnorm b * vnorm b)) in Q by ring. rewrite !vnorm_sq in Q.
    assert (X : vdot a a * vdot b b - vdot a b * vdot a b = vdot (vcross a b) (vcross a b)) by (unf; ring). pose proof (vnorm_sq (vcross a b)) as Y. pose proof (vnorm_nonneg (vcross a b)). nra. }
  apply Rnot_lt_le. intros L. assert (Q : (vnorm a + vnorm b) * (vnorm a + vnorm b) < vnorm (vadd a b) * vnorm (vadd a b)) by (apply Rmult_le_0_lt_compat; lra).
  rewrite vnorm_sq in Q. replace (vdot (vadd a b) (vadd a b)) with (vdot a a + 2 * vdot a b + vdot b b) in Q by (unf; ring). rewrite <- !vnorm_sq in Q. lra.
Qed.
Lemma rot_z_same a b : same_angle PI a b <-> rot_z a = rot_z b.
Proof.
  split.
  - intros [k ->]. assert (E : cos (a + 2 * PI * IZR k) = cos a /\ sin (a + 2 * PI * IZR k) = sin a).
    { replace (a + 2 * PI * IZR k) with (a + 2 * IZR k * PI) by ring. destruct k as [|k|k].
      - replace (a + 2 * 0 * PI) with a by ring. split; reflexivity.
      - rewrite <- (positive_nat_Z k), <- INR_IZR_INZ. split; [apply cos_period | apply sin_period].
      - rewrite <- Pos2Z.opp_pos, opp_IZR, <- (positive_nat_Z k), <- INR_IZR_INZ. set (n := Pos.to_nat k). split; [rewrite <- (cos_period _ n) | rewrite <- (sin_period _ n)]; f_equal; ring. }
    unfold rot_z. destruct E as [-> ->]. reflexivity.
  - intros H. pose proof (f_equal m00 H) as C. pose proof (f_equal m10 H) as S. cbn in C, S.
    set (d := enforce PI (b - a)). destruct (C48_enforce PI (b - a) PI_RGT_0) as ([k E] & B & _). fold d in E, B.
    assert (Cd : cos d = 1).
    { replace (cos d) with (cos (b - a)). { rewrite cos_minus, <- C, <- S. pose proof (sin2_cos2 a). unfold Rsqr in *. lra. }
      assert (Q : rot_z (b - a) = rot_z d); [|exact (f_equal m00 Q)].
      clear - E. rewrite E. replace (b - a + 2 * PI * IZR k) with (b - a + 2 * IZR k * PI) by ring. unfold rot_z. generalize (b - a) as x. intros x.
      assert (E' : cos (x + 2 * IZR k * PI) = cos x /\ sin (x + 2 * IZR k * PI) = sin x); [|destruct E' as [-> ->]; reflexivity].
      destruct k as [|k|k].
      - replace (x + 2 * 0 * PI) with x by ring. split; reflexivity.
      - rewrite <- (positive_nat_Z k), <- INR_IZR_INZ. split; [apply cos_period | apply sin_period].
      - rewrite <- Pos2Z.opp_pos, opp_IZR, <- (positive_nat_Z k), <- INR_IZR_INZ. set (n := Pos.to_nat k). split; [rewrite <- (cos_period _ n) | rewrite <- (sin_period _ n)]; f_equal; ring. }
    assert (D0 : d = 0).
    { rewrite <- cos_0 in Cd. destruct (Rtotal_order d 0) as [L|[L|L]]; [|exact L|]; exfalso.
      - rewrite <- (cos_neg d) in Cd. pose proof (cos_decreasing_1 0 (- d) ltac:(lra) ltac:(lra) ltac:(lra) ltac:(lra) ltac:(lra)). lra.
      - pose proof (cos_decreasing_1 0 d ltac:(lra) ltac:(lra) ltac:(lra) ltac:(lra) L). lra. }
    exists (- k)%Z. rewrite opp_IZR. lra.
Qed.
(** The angle between two rotations about the third axis is the shortest way between the angles. *)
Lemma rot_z_distance a b d : shortest PI a b d -> mdistance (rot_z a) (rot_z b) = d.
Proof.
  intros H. pose proof H as [(e & S & <-) M]. unfold mdistance.
  assert (B : Rabs e <= PI).
  { destruct (C49_signed_distance_partial PI a b PI_RGT_0) as (H' & L & _). destruct H' as [(e' & S' & E') _]. specialize (M e' S'). lra. }
  apply rot_z_same in S. rewrite <- S. replace ((mtrace (mmul (rot_z a) (mtrans (rot_z (a + e)))) - 1) / 2) with (cos (Rabs e)).
  - apply acos_cos. split; [apply Rabs_pos | exact B].
  - replace (cos (Rabs e)) with (cos e) by (unfold Rabs; destruct (Rcase_abs e); rewrite ?cos_neg; reflexivity).
    replace e with (a + e - a) at 1 by ring. rewrite cos_minus. unfold rot_z. unf. field.
Qed.
Lemma compute_pose c : se2_compute_pose c = pose2 c.
Proof. unfold se2_compute_pose, pose2. rewrite qmat_z. apply iso_eq; cbn [imul irot itrans]; [unfold qmat, rot_z; mring | unfold qmat; vring]. Qed.

(** After the construction, or SetPosition, the robot is where it was told to be: the same place, the angle a representative in (-pi, pi], and
    the only link in the pose of the configuration that was given.  Weights are kept. *)
Theorem C121_position r c name : let r' := se2_set_position r c in
  vx (s2_config r') = vx c /\ vy (s2_config r') = vy c /\ - PI < vz (s2_config r') <= PI /\ same_angle PI (vz c) (vz (s2_config r')) /\
  se2_link_names r' = [s2_name r] /\ se2_link_transform r' (s2_name r) = Ok (pose2 c) /\ se2_link_transforms r' = [pose2 c] /\ se2_link_map r' = [(s2_name r, pose2 c)] /\
  (name <> s2_name r -> se2_link_transform r' name = Throw InvalidArgument) /\ s2_wp r' = s2_wp r /\ s2_wr r' = s2_wr r /\
  se2_set_position r' (s2_config r') = r' /\
  (forall wp wr, se2_make c wp wr (s2_name r) = mkSe2 (s2_pose r') (s2_config r') (Rabs wp) (Rabs wr) (s2_name r)).
Proof.
  cbv zeta. destruct (C48_enforce PI (vz c) PI_RGT_0) as (S & B & _ & _).
  assert (P : s2_pose (se2_set_position r c) = pose2 c) by (unfold se2_set_position; cbn [s2_pose]; rewrite compute_pose; unfold pose2; cbn [vx vy vz]; rewrite (proj1 (rot_z_same _ _) S); reflexivity).
  unfold se2_link_transform, se2_link_transforms, se2_link_map, se2_link_names. rewrite P. cbn [se2_set_position s2_config s2_name s2_wp s2_wr vx vy vz]. rewrite String.eqb_refl.
  do 8 (split; [try reflexivity; assumption|]). split; [intros N; apply String.eqb_neq in N; rewrite N; reflexivity|]. split; [reflexivity|]. split; [reflexivity|]. split; [|intros wp wr; rewrite <- P; reflexivity].
  unfold se2_set_position. cbn [s2_config s2_name s2_wp s2_wr vx vy vz]. rewrite (proj2 (proj2 (proj2 (C48_enforce PI (enforce PI (vz c)) PI_RGT_0))) B). reflexivity.
Qed.
Print Assumptions C121_position.

(** The distance of two configurations is that of their poses, weighted: symmetric, with the triangle inequality, and zero exactly for the same pose
    (for weights that are not zero). *)
Theorem C121_distance c0 wp wr name a b c : let r := se2_make c0 wp wr name in
  se2_distance r a b = weighted (Rabs wp) (Rabs wr) (pose2 a) (pose2 b) /\
  0 <= se2_distance r a b /\ se2_distance r a b = se2_distance r b a /\ se2_distance r a c <= se2_distance r a b + se2_distance r b c /\
  (wp <> 0 -> wr <> 0 -> (se2_distance r a b = 0 <-> pose2 a = pose2 b)) /\
  (let d := se2_per_dimension a b in vx d = Rabs (vx a - vx b) /\ vy d = Rabs (vy a - vy b) /\ vz d = mdistance (rot_z (vz a)) (rot_z (vz b))).
Proof.
  cbv zeta. set (r := se2_make c0 wp wr name).
  assert (RZ : forall a b, Rabs (signed_distance PI a b) = mdistance (rot_z a) (rot_z b)) by (intros x y; symmetry; apply rot_z_distance; apply C49_signed_distance_partial; exact PI_RGT_0).
  assert (D : forall a b, se2_distance r a b = weighted (Rabs wp) (Rabs wr) (pose2 a) (pose2 b)).
  { intros x y. unfold se2_distance, weighted, se2_signed, pose2, r. cbn [vx vy vz irot itrans se2_make se2_set_position s2_wp s2_wr]. rewrite RZ.
    replace (vnorm (vsub (mkV (vx y) (vy y) 0) (mkV (vx x) (vy x) 0))) with (sqrt ((vx y - vx x) * (vx y - vx x) + (vy y - vy x) * (vy y - vy x))) by (unfold vnorm; f_equal; unf; ring). ring. }
  assert (RT : forall x, rotation (irot (pose2 x))) by (intros x; apply rot_z_rot).
  assert (MN : forall a b, 0 <= mdistance (irot (pose2 a)) (irot (pose2 b))) by (intros x y; apply (C99_matrix _ _ (RT x) (RT y))).
  assert (VN : forall v, 0 <= vnorm v) by (intros v; apply sqrt_pos).
  pose proof (Rabs_pos wp) as WP. pose proof (Rabs_pos wr) as WR.
  split; [apply D|]. split; [rewrite D; unfold weighted; apply Rplus_le_le_0_compat; apply Rmult_le_pos; auto|]. split; [|split; [|split]].
  - rewrite !D. unfold weighted. rewrite (proj1 (C99_metric _ _ _ (RT a) (RT b) (RT b))). f_equal. f_equal. unfold vnorm. f_equal. unf; ring.
  - rewrite !D. unfold weighted. pose proof (proj1 (proj2 (C99_metric _ _ _ (RT a) (RT b) (RT c)))) as T.
    assert (V : vnorm (vsub (itrans (pose2 c)) (itrans (pose2 a))) <= vnorm (vsub (itrans (pose2 b)) (itrans (pose2 a))) + vnorm (vsub (itrans (pose2 c)) (itrans (pose2 b)))).
    { replace (vsub (itrans (pose2 c)) (itrans (pose2 a))) with (vadd (vsub (itrans (pose2 b)) (itrans (pose2 a))) (vsub (itrans (pose2 c)) (itrans (pose2 b)))) by vring. apply vnorm_triangle. }
    pose proof (Rmult_le_compat_l _ _ _ WP V) as V'. pose proof (Rmult_le_compat_l _ _ _ WR T) as T'. lra.
  - intros NP NR. apply Rabs_pos_lt in NP. apply Rabs_pos_lt in NR. rewrite D. unfold weighted. pose proof (VN (vsub (itrans (pose2 b)) (itrans (pose2 a)))) as A1. pose proof (MN a b) as A2. split.
    + intros H. pose proof (Rmult_le_pos _ _ WP A1) as B1. pose proof (Rmult_le_pos _ _ WR A2) as B2.
      assert (Z1 : vnorm (vsub (itrans (pose2 b)) (itrans (pose2 a))) = 0) by (apply (Rmult_eq_reg_l (Rabs wp)); lra). assert (Z2 : mdistance (irot (pose2 a)) (irot (pose2 b)) = 0) by (apply (Rmult_eq_reg_l (Rabs wr)); lra).
      apply (C99_matrix _ _ (RT a) (RT b)) in Z2. apply vnorm_zero in Z1. apply iso_eq; [exact Z2|]. pose proof (f_equal vx Z1) as X. pose proof (f_equal vy Z1) as Y. cbn in X, Y. cbn [pose2 itrans]. f_equal; lra.
    + intros H. rewrite H. rewrite (proj2 (proj2 (proj2 (proj2 (C99_matrix _ _ (RT b) (RT b))))) eq_refl). replace (vsub (itrans (pose2 b)) (itrans (pose2 b))) with vzero by vring. rewrite (proj2 (vnorm_zero vzero) eq_refl). ring.
  - unfold se2_per_dimension, se2_signed. cbn [vx vy vz]. rewrite RZ. split; [apply Rabs_minus_sym|]. split; [apply Rabs_minus_sym | reflexivity].
Qed.
Print Assumptions C121_distance.
(** Interpolation divides the distance in the given ratio, whatever the weights. *)
Theorem C121_interpolate r a b ratio : let t := Rmax 0 (Rmin 1 ratio) in let i := se2_interpolate a b ratio in
  se2_distance r a i = t * se2_distance r a b /\ se2_distance r i b = (1 - t) * se2_distance r a b /\
  vx i = vx a + t * (vx b - vx a) /\ vy i = vy a + t * (vy b - vy a) /\ - PI <= vz i <= PI.
Proof.
  cbv zeta. set (t := Rmax 0 (Rmin 1 ratio)).
  assert (U : unit_interval ratio = t) by (unfold unit_interval, t, Rmax, Rmin; cases; destruct (Rle_dec 1 ratio); destruct (Rle_dec _ _); lra).
  assert (T : 0 <= t <= 1) by (unfold t, Rmax, Rmin; destruct (Rle_dec 1 ratio); destruct (Rle_dec _ _); lra).
  destruct (C50_interpolate PI (vz a) (vz b) ratio PI_RGT_0) as (IB & (e & E1 & E2 & E3) & _ & _). cbv zeta in IB, E3. fold t in E3. set (k := interpolate_revolute PI (vz a) (vz b) ratio) in *.
  assert (IX : vx (se2_interpolate a b ratio) = vx a + t * (vx b - vx a)) by (unfold se2_interpolate, interpolate; cbn [vx]; rewrite U; ring).
  assert (IY : vy (se2_interpolate a b ratio) = vy a + t * (vy b - vy a)) by (unfold se2_interpolate, interpolate; cbn [vy]; rewrite U; ring).
  assert (B : Rabs e <= PI).
  { destruct (C49_signed_distance_partial PI (vz a) (vz b) PI_RGT_0) as (H' & L & _). destruct H' as [(e' & S' & E') _]. pose proof (proj2 E2 e' S'). lra. }
  assert (SR : forall x y f, same_angle PI (x + f) y -> Rabs f <= PI -> Rabs (signed_distance PI x y) = Rabs f).
  { intros x y f S L. transitivity (mdistance (rot_z x) (rot_z y)); [symmetry|]; apply rot_z_distance; [apply C49_signed_distance_partial; exact PI_RGT_0 | apply shortest_intro; [exact PI_RGT_0 | exact L | exact S]]. }
  assert (A0 : Rabs (signed_distance PI (vz a) (vz b)) = Rabs e) by (apply SR; assumption).
  assert (AM : forall s, 0 <= s <= 1 -> Rabs (s * e) = s * Rabs e /\ Rabs (s * e) <= PI).
  { intros s S. rewrite Rabs_mult, (Rabs_right s) by lra. split; [reflexivity|]. pose proof (Rabs_pos e). nra. }
  assert (A1 : Rabs (signed_distance PI (vz a) k) = t * Rabs e) by (rewrite (SR _ _ (t * e)); [apply AM; exact T | exact E3 | apply AM; exact T]).
  assert (A2 : Rabs (signed_distance PI k (vz b)) = (1 - t) * Rabs e).
  { rewrite (SR _ _ ((1 - t) * e)); [apply AM; lra | | apply AM; lra]. apply (same_trans PI) with (vz a + e); [|exact E1]. replace (vz a + e) with (vz a + t * e + (1 - t) * e) by ring. apply same_shift. apply same_sym. exact E3. }
  assert (SQ : forall s u v, 0 <= s -> sqrt ((s * u) * (s * u) + (s * v) * (s * v)) = s * sqrt (u * u + v * v)).
  { intros s u v S. replace (s * u * (s * u) + s * v * (s * v)) with (s * s * (u * u + v * v)) by ring. rewrite sqrt_mult by nra. rewrite sqrt_square by exact S. reflexivity. }
  assert (D0 : forall s c d, 0 <= s -> vx d - vx c = s * (vx b - vx a) -> vy d - vy c = s * (vy b - vy a) -> Rabs (signed_distance PI (vz c) (vz d)) = s * Rabs e -> se2_distance r c d = s * se2_distance r a b).
  { intros s c d S X Y Z. unfold se2_distance, se2_signed. cbn [vx vy vz]. rewrite X, Y, Z, A0, SQ by exact S. ring. }
  split; [apply D0; [lra | rewrite IX; ring | rewrite IY; ring | exact A1]|]. split; [apply D0; [lra | rewrite IX; ring | rewrite IY; ring | exact A2]|]. split; [exact IX|]. split; [exact IY | exact IB].
Qed.
Print Assumptions C121_interpolate.

(** The average of configurations: the means of the entries; of none, zero. *)
Theorem C121_average_partial dbg cs : se2_average dbg [] = Ok vzero /\
  (cs <> [] -> let n := INR (length cs) in se2_average dbg cs = Ok (mkV (Rsum (map vx cs) / n) (Rsum (map vy cs) / n) (Rsum (map vz cs) / n))).
Proof.
  split; [reflexivity|]. intros NE. cbv zeta. unfold se2_average. destruct cs as [|c0 cs0]; [contradiction|]. set (cs := c0 :: cs0) in *.
  destruct (C107_mean dbg (map (fun c i => match i with O => vx c | S _ => vy c end) cs)) as (m & E & M); [discriminate|]. rewrite E. cbn [obind].
  rewrite C52_mean by discriminate. cbn [obind]. rewrite !M, !map_length, !map_map. reflexivity.
Qed.
(** The plain mean of two angles on either side of the cut points the other way. *)
Theorem C121_average_refuted : exists a b m, - PI < vz a <= PI /\ - PI < vz b <= PI /\ se2_average true [a; b] = Ok m /\
  mdistance (irot (pose2 a)) (irot (pose2 b)) = 1 / 5 /\ 29 / 10 < mdistance (irot (pose2 a)) (irot (pose2 m)) /\ 29 / 10 < mdistance (irot (pose2 b)) (irot (pose2 m)).
Proof.
  pose (h := PI - 1 / 10). assert (P : 3 < PI) by (pose proof PI2_3_2; lra).
  assert (K : forall x y f, same_angle PI (x + f) y -> Rabs f <= PI -> mdistance (rot_z x) (rot_z y) = Rabs f) by (intros x y f S L; apply rot_z_distance; apply shortest_intro; [exact PI_RGT_0 | exact L | exact S]).
  exists (mkV 0 0 h), (mkV 0 0 (- h)), (mkV 0 0 0). cbn [vz]. split; [unfold h; lra|]. split; [unfold h; lra|]. split; [|split; [|split]].
  - destruct (C121_average_partial true [mkV 0 0 h; mkV 0 0 (- h)]) as [_ A]. rewrite A by discriminate. cbn [map Rsum length INR vx vy vz fold_right]. unfold Rsum. cbn. f_equal. f_equal; field.
  - cbn [pose2 irot vz]. rewrite (K _ _ (1 / 5)); [apply Rabs_right; lra | exists (-1)%Z; unfold h; lra | rewrite Rabs_right; lra].
  - cbn [pose2 irot vz]. rewrite (K _ _ (- h)); [rewrite Rabs_Ropp, Rabs_right; unfold h; lra | exists 0%Z; lra | rewrite Rabs_Ropp, Rabs_right; unfold h; lra].
  - cbn [pose2 irot vz]. rewrite (K _ _ h); [rewrite Rabs_right; unfold h; lra | exists 0%Z; lra | rewrite Rabs_right; unfold h; lra].
Qed.
Print Assumptions C121_average_partial. Print Assumptions C121_average_refuted.

(** The columns of the Jacobian are how a point of the link moves as x, y and the angle change. *)
Theorem C121_jacobian r0 c p name : let r := se2_set_position r0 c in
  (exists j1 j2 j3, se2_jacobian r (s2_name r0) p 1 = Ok (j1, j2, j3) /\
    vderiv (fun x => iapp (pose2 (mkV x (vy c) (vz c))) p) (vx c) j1 /\ vderiv (fun y => iapp (pose2 (mkV (vx c) y (vz c))) p) (vy c) j2 /\
    vderiv (fun z => iapp (pose2 (mkV (vx c) (vy c) z)) p) (vz c) j3) /\
  (name <> s2_name r0 -> forall w, se2_jacobian r name p w = Throw InvalidArgument).
Proof.
  cbv zeta. destruct (C121_position r0 c name) as (PX & PY & _ & _ & _ & PT & _). cbv zeta in *. unfold se2_link_transform in PT. unfold se2_jacobian.
  assert (SN : s2_name (se2_set_position r0 c) = s2_name r0) by reflexivity. rewrite SN in *. rewrite String.eqb_refl in *. apply (f_equal (fun o => match o with Ok x => x | _ => iid end)) in PT. split.
  - cbv zeta. rewrite PX, PY. eexists _, _, _. split; [reflexivity|]. rewrite PT. unfold pose2, iapp, rot_z, vderiv, ux, uy, uz. unf. cbn.
    split; [|split]; (split; [|split]); auto_derive; try exact I; ring.
  - intros N w. apply String.eqb_neq in N. rewrite N. reflexivity.
Qed.
Print Assumptions C121_jacobian.
(** A robot half a turn past the cut. *)
Example se2_case : exists r, r = se2_make (mkV 1 2 (3 * PI)) (-2) 3 "body" /\ s2_config r = mkV 1 2 PI /\ se2_distance r (s2_config r) (mkV 4 6 0) = 10 + 3 * PI.
Proof.
  exists (se2_make (mkV 1 2 (3 * PI)) (-2) 3 "body"). split; [reflexivity|]. pose proof PI_RGT_0 as P.
  assert (C : s2_config (se2_make (mkV 1 2 (3 * PI)) (-2) 3 "body") = mkV 1 2 PI).
  { cbn [se2_make se2_set_position s2_config vx vy vz]. f_equal. apply (C48_enforce PI (3 * PI) P); [exists (-1)%Z; lra | lra]. }
  split; [exact C|]. rewrite C. destruct (C121_distance (mkV 1 2 (3 * PI)) (-2) 3 "body" (mkV 1 2 PI) (mkV 4 6 0) vzero) as (D & _). rewrite D. unfold weighted. cbn [pose2 irot itrans vx vy vz].
  rewrite (rot_z_distance PI 0 PI).
  - replace (vnorm (vsub (mkV 4 6 0) (mkV 1 2 0))) with 5; [rewrite Rabs_left, Rabs_right by lra; lra|]. unfold vnorm. replace (vdot _ _) with (5 * 5) by (unf; ring). symmetry. apply sqrt_square. lra.
  - replace PI with (Rabs (- PI)) at 3 by (rewrite Rabs_left; lra). apply shortest_intro; [exact P | rewrite Rabs_left; lra | exists 0%Z; lra].
Qed.
