(** Model of the fast forward kinematics headers ur_10_fk_fast.hpp, iiwa_7_fk_fast.hpp, iiwa_14_fk_fast.hpp and
    abb_irb1600_145_fk_fast.hpp, over the reals: rounding is not modelled, M_PI is pi, and the decimal constants are themselves
    (the rounded constants of abb_irb1600_145_fk_fast.hpp 95 excepted). *)
From Coq Require Import String Reals.
From Verif Require Import Base MathModel GeoModel RotModel.
Open Scope R_scope.

(** The functions Get_..._LinkJointTransform differ in their constants only: a turning joint with its translation, rotation and axis, or a fixed one. *)
Inductive kstep := Turn (t : V3) (q : quat) (axis : V3) | Fixed (t : V3) (q : quat).
(** ur_10_fk_fast.hpp 33-42, likewise the others: translation * rotation * (joint translation (0, 0, 0) * rotation about the axis). *)
Definition turn_transform (t : V3) (q : quat) (axis : V3) (joint_val : R) : iso :=
  let pre_joint_transform := mkI (qmat q) t in
  let joint_transform := mkI (qmat (qaxis joint_val axis)) vzero in
  imul pre_joint_transform joint_transform.
(** abb_irb1600_145_fk_fast.hpp 93-98: Get_Fixed_link_6_joint_tool_LinkJointTransform. *)
Definition fixed_transform (t : V3) (q : quat) : iso := mkI (qmat q) t.

(** ur_10_fk_fast.hpp 97-106, likewise the others: each link after the one before; configuration[k] past the end is undefined. *)
Fixpoint chain (base : iso) (steps : list kstep) (configuration : list R) : outcome (list iso) :=
  match steps with
  | [] => Ok [base]
  | Turn t q a :: steps =>
      match configuration with
      | [] => UB
      | v :: configuration => let! rest := chain (imul base (turn_transform t q a v)) steps configuration in Ok (base :: rest)
      end
  | Fixed t q :: steps => let! rest := chain (imul base (fixed_transform t q)) steps configuration in Ok (base :: rest)
  end.

Record arm := mkArm { arm_active : nat; arm_joints : list string; arm_links : list string; arm_steps : list kstep }.
(** ur_10_fk_fast.hpp 94-107, likewise the others: GetLinkTransforms of a vector. *)
Definition link_transforms (dbg : bool) (r : arm) (configuration : list R) (base : iso) : outcome (list iso) :=
  cassert dbg (length configuration =? arm_active r)%nat (chain base (arm_steps r) configuration).
(** A std::map from names, as seen by lookups. *)
Definition named (A : Type) := string -> option A.
Definition put {A} (m : named A) (k : string) (a : A) : named A := fun x => if String.eqb x k then Some a else m x.
(** RetrieveOrDefault(configuration, name, 0.0); abb_irb1600_145_fk_fast.hpp 121-126 uses operator[] of a copy, with the same result. *)
Definition retrieve (m : named R) (k : string) : R := match m k with Some v => v | None => 0 end.
(** ur_10_fk_fast.hpp 109-120, likewise the others: GetLinkTransforms of a map. *)
Definition link_transforms_named (dbg : bool) (r : arm) (configuration : named R) (base : iso) : outcome (list iso) :=
  link_transforms dbg r (map (retrieve configuration) (arm_joints r)) base.
(** The assignments link_transforms_map[name] = link_transforms[k]. *)
Fixpoint name_links (m : named iso) (names : list string) (ts : list iso) : outcome (named iso) :=
  match names, ts with
  | [], _ => Ok m
  | k :: names, t :: ts => name_links (put m k t) names ts
  | _ :: _, [] => UB
  end.
Definition no_links : named iso := fun _ => None.
(** ur_10_fk_fast.hpp 120-132, 134-147: GetLinkTransformsMap of a vector and of a map. *)
Definition link_map (dbg : bool) (r : arm) (configuration : list R) (base : iso) : outcome (named iso) :=
  let! ts := link_transforms dbg r configuration base in name_links no_links (arm_links r) ts.
Definition link_map_named (dbg : bool) (r : arm) (configuration : named R) (base : iso) : outcome (named iso) :=
  let! ts := link_transforms_named dbg r configuration base in name_links no_links (arm_links r) ts.

Local Open Scope string_scope.
(** ur_10_fk_fast.hpp 15-92. *)
Definition ur_10 : arm := mkArm 6
  ["shoulder_pan_joint"; "shoulder_lift_joint"; "elbow_joint"; "wrist_1_joint"; "wrist_2_joint"; "wrist_3_joint"]
  ["base_link"; "shoulder_link"; "upper_arm_link"; "forearm_link"; "wrist_1_link"; "wrist_2_link"; "wrist_3_link"]
  [ Turn (mkV 0 0 0.1273) (quat_urdf_rpy 0 0 0) uz;
    Turn (mkV 0 0.220941 0) (quat_urdf_rpy 0 (PI / 2) 0) uy;
    Turn (mkV 0 (-0.1719) 0.612) (quat_urdf_rpy 0 0 0) uy;
    Turn (mkV 0 0 0.5723) (quat_urdf_rpy 0 (PI / 2) 0) uy;
    Turn (mkV 0 0.1149 0) (quat_urdf_rpy 0 0 0) uz;
    Turn (mkV 0 0 0.1157) (quat_urdf_rpy 0 0 0) uy ].
Definition iiwa_joints : list string :=
  ["iiwa_joint_1"; "iiwa_joint_2"; "iiwa_joint_3"; "iiwa_joint_4"; "iiwa_joint_5"; "iiwa_joint_6"; "iiwa_joint_7"].
Definition iiwa_links : list string :=
  ["iiwa_link_0"; "iiwa_link_1"; "iiwa_link_2"; "iiwa_link_3"; "iiwa_link_4"; "iiwa_link_5"; "iiwa_link_6"; "iiwa_link_7"].
(** iiwa_7_fk_fast.hpp 15-103. *)
Definition iiwa_7 : arm := mkArm 7 iiwa_joints iiwa_links
  [ Turn (mkV 0 0 0.15) (quat_urdf_rpy 0 0 0) uz;
    Turn (mkV 0 0 0.19) (quat_urdf_rpy (PI / 2) 0 PI) uz;
    Turn (mkV 0 0.21 0) (quat_urdf_rpy (PI / 2) 0 PI) uz;
    Turn (mkV 0 0 0.19) (quat_urdf_rpy (PI / 2) 0 0) uz;
    Turn (mkV 0 0.21 0) (quat_urdf_rpy (- (PI / 2)) PI 0) uz;
    Turn (mkV 0 0.06070 0.19) (quat_urdf_rpy (PI / 2) 0 0) uz;
    Turn (mkV 0 0.081 0.06070) (quat_urdf_rpy (- (PI / 2)) PI 0) uz ].
(** iiwa_14_fk_fast.hpp 15-103. *)
Definition iiwa_14 : arm := mkArm 7 iiwa_joints iiwa_links
  [ Turn (mkV 0 0 0.1575) (quat_urdf_rpy 0 0 0) uz;
    Turn (mkV 0 0 0.2025) (quat_urdf_rpy (PI / 2) 0 PI) uz;
    Turn (mkV 0 0.2045 0) (quat_urdf_rpy (PI / 2) 0 PI) uz;
    Turn (mkV 0 0 0.2155) (quat_urdf_rpy (PI / 2) 0 0) uz;
    Turn (mkV 0 0.1845 0) (quat_urdf_rpy (- (PI / 2)) PI 0) uz;
    Turn (mkV 0 0 0.2155) (quat_urdf_rpy (PI / 2) 0 0) uz;
    Turn (mkV 0 0.081 0) (quat_urdf_rpy (- (PI / 2)) PI 0) uz ].
(** abb_irb1600_145_fk_fast.hpp 15-98; 0.7071067811865476 is the double 6369051672525773 / 2^53. *)
Definition root_half : R := 6369051672525773 / 9007199254740992.
Definition qone : quat := mkQ 1 0 0 0.
Definition abb : arm := mkArm 6
  ["joint_1"; "joint_2"; "joint_3"; "joint_4"; "joint_5"; "joint_6"]
  ["link_0"; "link_1"; "link_2"; "link_3"; "link_4"; "link_5"; "link_6"; "link_7"]
  [ Turn (mkV 0 0 0.1245) qone uz;
    Turn (mkV 0.15 (-0.1395) 0.362) qone uy;
    Turn (mkV 0 0.028 0.7) qone uy;
    Turn (mkV 0.314 0.107 0) qone ux;
    Turn (mkV 0.286 0 0) qone uy;
    Turn (mkV 0 0 0) qone ux;
    Fixed (mkV 0.065 0 0) (mkQ root_half 0 root_half 0) ].
