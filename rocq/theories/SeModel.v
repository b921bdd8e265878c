(** Model of include/arc_utilities/simple_se2_robot_model.hpp and simple_se3_robot_model.hpp, over the real numbers: rounding, infinities and NaN
    are not modelled.  The serializers are those of Eigen values, modelled in SerialModel; Clone copies every field. *)
From Coq Require Import String Reals Bool List.
From Verif Require Import Base MathModel TotpModel EVecModel ELinModel GeoModel RotModel.
Import ListNotations.
Open Scope R_scope.

(** simple_se2_robot_model.hpp 36-40: the members; a configuration is (x, y, angle). *)
Record se2 := mkSe2 { s2_pose : iso; s2_config : V3; s2_wp : R; s2_wr : R; s2_name : string }.
(** 50-59: ComputePose. *)
Definition se2_compute_pose (c : V3) : iso :=
  imul (mkI (qmat (mkQ 1 0 0 0)) (mkV (vx c) (vy c) 0)) (mkI (qmat (qaxis (vz c) uz)) vzero).
(** 42-48, 80-83: SetConfig and SetPosition. *)
Definition se2_set_position (r : se2) (c : V3) : se2 :=
  let c := mkV (vx c) (vy c) (enforce PI (vz c)) in mkSe2 (se2_compute_pose c) c (s2_wp r) (s2_wr r) (s2_name r).
(** 64-71: the constructor; the members are uninitialised before SetPosition, which writes the two of them that it does not get here. *)
Definition se2_make (c : V3) (wp wr : R) (name : string) : se2 := se2_set_position (mkSe2 iid vzero (Rabs wp) (Rabs wr) name) c.
(** 87-93: GetLinkTransform. *)
Definition se2_link_transform (r : se2) (name : string) : outcome iso := if String.eqb name (s2_name r) then Ok (s2_pose r) else Throw InvalidArgument.
(** 85, 95, 97-101: GetLinkNames, GetLinkTransforms and GetLinkTransformsMap. *)
Definition se2_link_names (r : se2) : list string := [s2_name r].
Definition se2_link_transforms (r : se2) : list iso := [s2_pose r].
Definition se2_link_map (r : se2) : list (string * iso) := [(s2_name r, s2_pose r)].
(** 103-111: ComputePerDimensionConfigurationSignedDistance. *)
Definition se2_signed (a b : V3) : V3 := mkV (vx b - vx a) (vy b - vy a) (signed_distance PI (vz a) (vz b)).
(** simple_robot_model_interface.hpp 36-39: ComputePerDimensionConfigurationDistance. *)
Definition se2_per_dimension (a b : V3) : V3 := let d := se2_signed a b in mkV (Rabs (vx d)) (Rabs (vy d)) (Rabs (vz d)).
(** 113-119: ComputeConfigurationDistance. *)
Definition se2_distance (r : se2) (a b : V3) : R :=
  let d := se2_signed a b in sqrt (vx d * vx d + vy d * vy d) * s2_wp r + Rabs (vz d) * s2_wr r.
(** 121-129: InterpolateBetweenConfigurations. *)
Definition se2_interpolate (a b : V3) (ratio : R) : V3 :=
  mkV (interpolate (vx a) (vx b) ratio) (interpolate (vy a) (vy b) ratio) (interpolate_revolute PI (vz a) (vz b) ratio).
(** 131-153: AverageConfigurations; AverageContinuousRevolute (math_helpers.hpp) is [average]. *)
Definition se2_average (dbg : bool) (cs : list V3) : outcome V3 :=
  match cs with
  | [] => Ok vzero
  | _ =>
    let! t := vaverage dbg (map (fun c i => match i with O => vx c | S _ => vy c end) cs) [] in
    let! a := average dbg (map vz cs) [] in
    Ok (mkV (t 0%nat) (t 1%nat) a)
  end.
(** 155-179: ComputeLinkPointTranslationJacobian: the three columns, for the point (p, w). *)
Definition se2_jacobian (r : se2) (name : string) (p : V3) (w : R) : outcome (V3 * V3 * V3) :=
  if String.eqb name (s2_name r) then
    let t := s2_pose r in
    let position := mkV (vx (s2_config r)) (vy (s2_config r)) 0 in
    let point := vadd (mapp (irot t) p) (vscale w (itrans t)) in
    Ok (vadd vzero ux, vadd vzero uy, vadd vzero (vcross (mapp (irot t) uz) (vsub point position)))
  else Throw InvalidArgument.

(** simple_se3_robot_model.hpp 36-39: the members; a configuration is an isometry. *)
Record se3 := mkSe3 { s3_config : iso; s3_wp : R; s3_wr : R; s3_name : string }.
(** 41, 62-65: SetConfig and SetPosition. *)
Definition se3_set_position (r : se3) (c : iso) : se3 := mkSe3 c (s3_wp r) (s3_wr r) (s3_name r).
(** 46-53: the constructor. *)
Definition se3_make (c : iso) (wp wr : R) (name : string) : se3 := se3_set_position (mkSe3 iid (Rabs wp) (Rabs wr) name) c.
(** 69-75: GetLinkTransform. *)
Definition se3_link_transform (r : se3) (name : string) : outcome iso := if String.eqb name (s3_name r) then Ok (s3_config r) else Throw InvalidArgument.
(** 67, 77-85: GetLinkNames, GetLinkTransforms and GetLinkTransformsMap. *)
Definition se3_link_names (r : se3) : list string := [s3_name r].
Definition se3_link_transforms (r : se3) : list iso := [s3_config r].
Definition se3_link_map (r : se3) : list (string * iso) := [(s3_name r, s3_config r)].
(** 87-100: ComputePerDimensionConfigurationSignedDistance: the translation and the rotation.  [rotation()] of an Isometry3d is its linear part. *)
Definition se3_signed (a b : iso) : V3 * R :=
  (vsub (itrans b) (itrans a), qdistance (qfrom (irot a)) (qfrom (irot b))).
(** 102-111: ComputeConfigurationDistance. *)
Definition se3_distance (r : se3) (a b : iso) : R :=
  vdistance (itrans a) (itrans b) * s3_wp r + qdistance (qfrom (irot a)) (qfrom (irot b)) * s3_wr r.
(** 113-117: InterpolateBetweenConfigurations. *)
Definition se3_interpolate (a b : iso) (ratio : R) : iso := iinterpolate a b ratio.
(** Vectors and quaternions as the lists of numbers that AverageEigenVector and AverageEigenQuaterniond work on. *)
Definition of_v3 (v : V3) : vec := fun i => match i with O => vx v | 1%nat => vy v | _ => vz v end.
Definition of_quat (q : quat) : vec := fun i => match i with O => qw q | 1%nat => qx q | 2%nat => qy q | _ => qz q end.
Definition to_quat (v : vec) : quat := mkQ (v 0%nat) (v 1%nat) (v 2%nat) (v 3%nat).
(** eigen_helpers.hpp 787-810: AverageEigenIsometry3d; [solver] as in ELinModel.quat_average. *)
Definition iso_average (dbg : bool) (solver : mat -> vec * mat) (ts : list iso) (ws : list R) : outcome iso :=
  cassert dbg (0 <? length ts)%nat (cassert dbg ((length ws =? length ts) || (length ws =? 0))%nat (
  match ts with
  | [t] => cassert dbg ((length ws =? 0)%nat || negb (Reqb (hd 0 ws) 0)) (Ok t)
  | _ =>
    let! t := vaverage dbg (map (fun t => of_v3 (itrans t)) ts) ws in
    let! q := quat_average dbg solver (map (fun t => of_quat (qfrom (irot t))) ts) ws in
    Ok (mkI (qmat (to_quat q)) (mkV (t 0%nat) (t 1%nat) (t 2%nat)))
  end)).
(** 119-126: AverageConfigurations. *)
Definition se3_average (dbg : bool) (solver : mat -> vec * mat) (cs : list iso) : outcome iso :=
  match cs with [] => Ok iid | _ => iso_average dbg solver cs [] end.
(** 128-144: ComputeLinkPointTranslationJacobian: the left and the right three columns; the fourth coordinate of the point is not used. *)
Definition se3_jacobian (r : se3) (name : string) (p : V3) (w : R) : outcome (M3 * M3) :=
  if String.eqb name (s3_name r) then Ok (mmul (irot (s3_config r)) mid, mmul (irot (s3_config r)) (mscale (skew p) (-1)))
  else Throw InvalidArgument.
