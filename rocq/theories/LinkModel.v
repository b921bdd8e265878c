(** Model of include/arc_utilities/simple_linked_robot_model.hpp over the real numbers: rounding is not modelled and M_PI is pi.
    Where the code looks at it, a double can be infinite or NaN ([ext]). *)
From Coq Require Import String Reals.
From Verif Require Import Base MathModel GeoModel RotModel.
Open Scope R_scope.

Inductive ext := Fin (x : R) | PInf | MInf | NaN.
(** [<] of doubles. *)
Definition eltb (a b : ext) : bool :=
  match a, b with
  | NaN, _ | _, NaN => false
  | Fin x, Fin y => Rltb x y
  | MInf, MInf => false
  | MInf, _ => true
  | PInf, _ => false
  | Fin _, PInf => true
  | Fin _, MInf => false
  end.
(** Arithmetic on two doubles.  A result from an operand that is not finite is [NaN] here; the C++ result can be an infinity instead. *)
Definition lift2 (f : R -> R -> R) (a b : ext) : ext := match a, b with Fin x, Fin y => Fin (f x y) | _, _ => NaN end.
Definition lift1 (f : R -> R) (a : ext) : ext := match a with Fin x => Fin (f x) | _ => NaN end.

(** simple_linked_robot_model.hpp 19: JOINT_TYPE; its underlying type is uint32_t, so every such number is a value of it. *)
Definition PRISMATIC : N := 4%N.
Definition REVOLUTE : N := 1%N.
Definition CONTINUOUS : N := 2%N.
Definition FIXED : N := 0%N.
(** 17-24: SimpleJointModel. *)
Record joint_model := mkJ { j_limits : ext * ext; j_value : ext; j_type : N }.
(** 94-124: the kind of joint. *)
Definition is_continuous (j : joint_model) : bool := (j_type j =? CONTINUOUS)%N.
Definition is_revolute (j : joint_model) : bool := (j_type j =? REVOLUTE)%N || (j_type j =? CONTINUOUS)%N.
Definition is_prismatic (j : joint_model) : bool := (j_type j =? PRISMATIC)%N.
Definition is_fixed (j : joint_model) : bool := (j_type j =? FIXED)%N.
(** 128-134: IsSameType. *)
Definition is_same_type (a b : joint_model) : bool := (j_type a =? j_type b)%N.
(** 154-164: InLimits. *)
Definition in_limits (j : joint_model) (v : ext) : bool :=
  if is_continuous j then true else if eltb v (fst (j_limits j)) || eltb (snd (j_limits j)) v then false else true.
(** 166-182: EnforceLimits. *)
Definition enforce_limits (j : joint_model) (v : ext) : outcome ext :=
  match v with
  | Fin x =>
      if is_continuous j then Ok (Fin (enforce PI x))
      else if eltb v (fst (j_limits j)) then Ok (fst (j_limits j))
      else if eltb (snd (j_limits j)) v then Ok (snd (j_limits j))
      else Ok v
  | _ => Throw InvalidArgument
  end.
(** 184-187: SetValue. *)
Definition set_value (j : joint_model) (v : ext) : outcome joint_model :=
  let! r := enforce_limits j v in Ok (mkJ (j_limits j) r (j_type j)).
(** 39-51: the constructor; the value before SetValue is not read. *)
Definition make_joint (limits : ext * ext) (v : ext) (type : N) : outcome joint_model :=
  if (type =? CONTINUOUS)%N then set_value (mkJ (MInf, PInf) NaN type) v
  else if eltb (snd limits) (fst limits) then Throw InvalidArgument
  else set_value (mkJ limits NaN type) v.
(** 53-57: the default constructor. *)
Definition default_joint : joint_model := mkJ (Fin 0, Fin 0) (Fin 0) FIXED.
(** 189-195: SignedDistance of two values. *)
Definition j_signed (j : joint_model) (v1 v2 : ext) : ext :=
  if is_continuous j then lift2 (signed_distance PI) v1 v2 else lift2 (fun a b => b - a) v1 v2.
(** 197-205: SignedDistance to another joint. *)
Definition signed_to (j other : joint_model) : outcome ext :=
  if is_same_type j other then Ok (j_signed j (j_value j) (j_value other)) else Throw InvalidArgument.
(** 207-211: Distance. *)
Definition j_distance (j : joint_model) (v1 v2 : ext) : ext := lift1 Rabs (j_signed j v1 v2).
(** 213: CopyWithNewValue. *)
Definition copy_with (j : joint_model) (v : ext) : outcome joint_model := make_joint (j_limits j) v (j_type j).

(** 240-287: RobotJoint. *)
Record rjoint := mkRJ { rj_transform : iso; rj_axis : V3; rj_parent : Z; rj_child : Z; rj_model : joint_model; rj_name : string }.
Definition with_model (j : rjoint) (m : joint_model) : rjoint := mkRJ (rj_transform j) (rj_axis j) (rj_parent j) (rj_child j) m (rj_name j).
(** What the transform of a link can hold: nothing yet (Eigen does not initialise it), entries some of which are not finite, or an isometry. *)
Inductive place := Unset | Bad | At (t : iso).
(** 289-308: RobotLink. *)
Record rlink := mkRL { rl_place : place; rl_name : string }.
Definition with_place (l : rlink) (p : place) : rlink := mkRL p (rl_name l).
(** 313-320: KinematicSkeletonElement. *)
Record element := mkE { e_parent : Z; e_parent_joint : Z; e_children : list Z; e_child_joints : list Z }.
Definition empty_element : element := mkE (-1) (-1) [] [].

(** [v[(size_t)i]] for a std::vector and an int64_t; [None] is out of range. *)
Definition zget {A} (l : list A) (i : Z) : option A := if (i <? 0)%Z then None else nth_error l (Z.to_nat i).

(** 350-364: the motion of a joint at its value. *)
Definition motion_at (j : rjoint) (x : R) : iso :=
  if is_revolute (rj_model j) then mkI (qmat (qaxis x (rj_axis j))) vzero
  else if is_prismatic (rj_model j) then mkI mid (vscale x (rj_axis j))
  else iid.
Definition motion (j : rjoint) : place :=
  if is_revolute (rj_model j) || is_prismatic (rj_model j) then
    match j_value (rj_model j) with Fin x => At (motion_at j x) | _ => Bad end
  else At iid.
(** 337-365: the body of the loop; reading a transform that was never written is undefined. *)
Definition place_child (links : list rlink) (j : rjoint) : outcome (list rlink) :=
  match zget links (rj_parent j), zget links (rj_child j) with
  | Some p, Some c =>
      match rl_place p with
      | Unset => UB
      | Bad => Ok (upd links (Z.to_nat (rj_child j)) (with_place c Bad))
      | At t =>
          match motion j with
          | At m => Ok (upd links (Z.to_nat (rj_child j)) (with_place c (At (imul (imul t (rj_transform j)) m))))
          | _ => Ok (upd links (Z.to_nat (rj_child j)) (with_place c Bad))
          end
      end
  | _, _ => UB
  end.
Fixpoint place_children (links : list rlink) (joints : list rjoint) : outcome (list rlink) :=
  match joints with
  | [] => Ok links
  | j :: joints => let! links := place_child links j in place_children links joints
  end.
(** 332-367: UpdateTransforms. *)
Definition update_transforms (base : iso) (links : list rlink) (joints : list rjoint) : outcome (list rlink) :=
  match links with
  | [] => UB
  | l :: rest => place_children (with_place l (At base) :: rest) joints
  end.

(** 322-330: the members of SimpleLinkedRobot. *)
Record robot := mkR { r_config : list joint_model; r_base : iso; r_inverse : iso; r_links : list rlink; r_joints : list rjoint;
  r_skeleton : list element; r_active : list Z; r_weights : list R; r_num : nat }.
(** 371-388: the loop of SetConfig: the exception thrown if any, the joints and the configuration as it leaves them. *)
Fixpoint set_joints (joints : list rjoint) (cfg : list joint_model) : outcome unit * list rjoint * list joint_model :=
  match joints with
  | [] => (Ok tt, [], [])
  | j :: joints =>
      if is_fixed (rj_model j) then let '(o, js, c) := set_joints joints cfg in (o, j :: js, c)
      else match cfg with
        | [] => (Throw RuntimeError, j :: joints, [])
        | n :: cfg =>
            match set_value (rj_model j) (j_value n) with
            | Ok m => let '(o, js, c) := set_joints joints cfg in (o, with_model j m :: js, m :: c)
            | Throw e => (Throw e, j :: joints, [])
            | _ => (UB, j :: joints, [])
            end
        end
  end.
(** 369-394: SetConfig, also 629-632: SetPosition; what happens, and the robot afterwards. *)
Definition set_position (r : robot) (cfg : list joint_model) : outcome unit * robot :=
  if (length cfg =? r_num r)%nat then
    let '(o, js, c) := set_joints (r_joints r) cfg in
    let r := mkR c (r_base r) (r_inverse r) (r_links r) js (r_skeleton r) (r_active r) (r_weights r) (r_num r) in
    match o with
    | Ok _ =>
        match update_transforms (r_base r) (r_links r) js with
        | Ok links => (Ok tt, mkR c (r_base r) (r_inverse r) links js (r_skeleton r) (r_active r) (r_weights r) (r_num r))
        | Throw e => (Throw e, r)
        | _ => (UB, r)
        end
    | _ => (o, r)
    end
  else (Throw InvalidArgument, r).
(** 396-411: MakeActiveJointIndexMap; the keys of the map are the indices 0, 1, .... *)
Fixpoint active_from (num : nat) (joints : list rjoint) : nat * list Z :=
  match joints with
  | [] => (num, [])
  | j :: joints =>
      if is_fixed (rj_model j) then let (n, l) := active_from num joints in (n, (-1)%Z :: l)
      else let (n, l) := active_from (S num) joints in (n, Z.of_nat num :: l)
  end.

(** 413-434: ExploreChildren; the map counts in a uint8_t. *)
Definition bump (m : Z -> N) (i : Z) : Z -> N := fun k => if (k =? i)%Z then ((m k + 1) mod 256)%N else m k.
Fixpoint explore (fuel : nat) (sk : list element) (i : Z) (m : Z -> N) : outcome (bool * (Z -> N)) :=
  match fuel with
  | O => NoFuel
  | S fuel =>
      let m := bump m i in
      if negb (m i =? 1)%N then Ok (true, m)
      else match zget sk i with
        | None => UB
        | Some e =>
            (fix go (cs : list Z) (m : Z -> N) : outcome (bool * (Z -> N)) :=
               match cs with
               | [] => Ok (false, m)
               | c :: cs =>
                   let! bm := explore fuel sk c m in
                   if fst bm then Ok (true, snd bm) else go cs (snd bm)
               end) (e_children e) m
        end
  end.
(** 442-463: the check of the parent of one element; [true] is passed. *)
Definition parent_ok (sk : list element) (i : nat) (e : element) : bool :=
  let p := e_parent e in
  if (0 <=? p)%Z && (p <? Z.of_nat (length sk))%Z then
    if negb (p =? Z.of_nat i)%Z then
      match zget sk p with Some pe => existsb (Z.eqb (Z.of_nat i)) (e_children pe) | None => false end
    else false
  else negb (p <? -1)%Z.
(** 466-488: the check of one child. *)
Definition child_ok (sk : list element) (i : nat) (c : Z) : bool :=
  if (0 <? c)%Z && (c <? Z.of_nat (length sk))%Z then
    if negb (c =? Z.of_nat i)%Z then
      match zget sk c with Some ce => (e_parent ce =? Z.of_nat i)%Z | None => false end
    else false
  else false.
Fixpoint linkage_ok (sk : list element) (i : nat) (es : list element) : bool :=
  match es with
  | [] => true
  | e :: es => parent_ok sk i e && forallb (child_ok sk i) (e_children e) && linkage_ok sk (S i) es
  end.
(** 436-505: CheckKinematicSkeleton; the fuel bounds the depth of the recursion. *)
Definition check_skeleton (sk : list element) : outcome bool :=
  if linkage_ok sk 0 sk then
    let! bm := explore (S (length sk)) sk 0 (fun _ => 0%N) in
    if fst bm then Ok false
    else Ok (forallb (fun i => (snd bm (Z.of_nat i) =? 1)%N) (seq 0 (length sk)))
  else Ok false.

(** 517-536: the names are all different. *)
Fixpoint unique_names (seen : list string) (names : list string) : bool :=
  match names with
  | [] => true
  | n :: names => if existsb (String.eqb n) seen then false else unique_names (n :: seen) names
  end.
(** 541-548: the axis is of length 1. *)
Definition axis_ok (j : rjoint) : bool := negb (Rltb epsilon (Rabs (vnorm (rj_axis j) - 1))).
(** 549-557: the edge of one joint; an index out of range is undefined. *)
Definition add_edge (sk : list element) (k : nat) (j : rjoint) : outcome (list element) :=
  match zget sk (rj_child j) with
  | None => UB
  | Some c =>
      let sk := upd sk (Z.to_nat (rj_child j)) (mkE (rj_parent j) (Z.of_nat k) (e_children c) (e_child_joints c)) in
      match zget sk (rj_parent j) with
      | None => UB
      | Some p => Ok (upd sk (Z.to_nat (rj_parent j)) (mkE (e_parent p) (e_parent_joint p) (e_children p ++ [rj_child j]) (e_child_joints p ++ [Z.of_nat k])))
      end
  end.
(** 539-558: the loop over the joints; [None] is a joint axis refused. *)
Fixpoint add_edges (sk : list element) (k : nat) (joints : list rjoint) : outcome (option (list element)) :=
  match joints with
  | [] => Ok (Some sk)
  | j :: joints =>
      if axis_ok j then let! sk := add_edge sk k j in add_edges sk (S k) joints
      else Ok None
  end.
(** 510-567: SanityCheckRobotModel. *)
Definition sanity_check (links : list rlink) (joints : list rjoint) : outcome (list element * bool) :=
  if negb (length links =? S (length joints))%nat then Ok ([], false)
  else if negb (unique_names [] (map rl_name links)) then Ok ([], false)
  else if negb (unique_names [] (map rj_name joints)) then Ok ([], false)
  else
    let! sk := add_edges (repeat empty_element (length links)) 0 joints in
    match sk with
    | None => Ok ([], false)
    | Some sk =>
        match sk with
        | [] => UB
        | root :: _ =>
            if negb (e_parent_joint root =? -1)%Z || negb (e_parent root =? -1)%Z then Ok ([], false)
            else let! b := check_skeleton sk in Ok (sk, b)
        end
    end.
(** 569-593: the constructor. *)
Definition make_robot (base : iso) (links : list rlink) (joints : list rjoint) (initial : list joint_model) (weights : list R) : outcome robot :=
  let! c := sanity_check links joints in
  if snd c then
    let (num, active) := active_from 0 joints in
    if negb (length weights =? num)%nat then Throw InvalidArgument
    else
      let r := mkR [] base (iinv base) links joints (fst c) active (map Rabs weights) num in
      match set_position r initial with
      | (Ok _, r) => Ok r
      | (Throw e, _) => Throw e
      | _ => UB
      end
  else Throw InvalidArgument.
(** 600-616: GetActiveJointNames. *)
Definition active_names (r : robot) : outcome (list string) :=
  let names := map rj_name (filter (fun j => negb (is_fixed (rj_model j))) (r_joints r)) in
  if (length names =? r_num r)%nat then Ok names else Throw RuntimeError.
(** 618-621: UpdateBaseTransform. *)
Definition update_base (r : robot) (base : iso) : outcome robot :=
  let! links := update_transforms base (r_links r) (r_joints r) in
  Ok (mkR (r_config r) base (r_inverse r) links (r_joints r) (r_skeleton r) (r_active r) (r_weights r) (r_num r)).
(** 643-651: GetLinkTransform. *)
Fixpoint find_link (links : list rlink) (name : string) : outcome place :=
  match links with
  | [] => Throw InvalidArgument
  | l :: links => if String.eqb (rl_name l) name then Ok (rl_place l) else find_link links name
  end.
Definition link_transform (r : robot) (name : string) : outcome place := find_link (r_links r) name.

(** 671-684: ComputeUnweightedPerDimensionConfigurationRawDistance. *)
Fixpoint raw_distances (c1 c2 : list joint_model) : outcome (list ext) :=
  match c1, c2 with
  | a :: c1, b :: c2 => let! d := signed_to a b in let! ds := raw_distances c1 c2 in Ok (d :: ds)
  | _, _ => Ok []
  end.
Definition unweighted_distances (c1 c2 : list joint_model) : outcome (list ext) :=
  if (length c1 =? length c2)%nat then raw_distances c1 c2 else Throw InvalidArgument.
(** 686-701: ComputePerDimensionConfigurationSignedDistance. *)
Definition signed_distances (r : robot) (c1 c2 : list joint_model) : outcome (list ext) :=
  if (length c1 =? r_num r)%nat && (length c2 =? r_num r)%nat then
    let! ds := raw_distances c1 c2 in Ok (map (fun c => lift1 (fun d => d * snd c) (fst c)) (combine ds (r_weights r)))
  else Throw InvalidArgument.
(** 703-706: ComputeConfigurationDistance. *)
Definition sum_squares (l : list ext) : ext := fold_right (fun d s => lift2 (fun d s => d * d + s) d s) (Fin 0) l.
Definition configuration_distance (r : robot) (c1 c2 : list joint_model) : outcome ext :=
  let! ds := signed_distances r c1 c2 in Ok (lift1 sqrt (sum_squares ds)).
(** 708-735: InterpolateBetweenConfigurations. *)
Fixpoint interpolate_joints (c1 c2 : list joint_model) (ratio : R) : outcome (list joint_model) :=
  match c1, c2 with
  | a :: c1, b :: c2 =>
      if is_same_type a b then
        let v := if is_continuous a then lift2 (fun x y => interpolate_revolute PI x y ratio) (j_value a) (j_value b)
                 else lift2 (fun x y => interpolate x y ratio) (j_value a) (j_value b) in
        let! j := copy_with a v in let! js := interpolate_joints c1 c2 ratio in Ok (j :: js)
      else Throw InvalidArgument
  | _, _ => Ok []
  end.
Definition interpolate_configs (c1 c2 : list joint_model) (ratio : R) : outcome (list joint_model) :=
  if (length c1 =? length c2)%nat then interpolate_joints c1 c2 ratio else Throw InvalidArgument.

(** 818-846: walking up the tree; [cols] are the columns written so far, linear part and angular part.  [point] with [w] is the world point. *)
Definition column := (V3 * V3)%type.
Definition set_column (cols : nat -> column) (k : Z) (c : column) : nat -> column := fun i => if (Z.of_nat i =? k)%Z then c else cols i.
Fixpoint walk_up (fuel : nat) (r : robot) (point : V3) (link : Z) (cols : nat -> column) : outcome (nat -> column) :=
  if (link <=? 0)%Z then Ok cols
  else match fuel with
  | O => NoFuel
  | S fuel =>
      match zget (r_skeleton r) link with
      | None => UB
      | Some e =>
          if (e_parent_joint e <? 0)%Z then Throw RuntimeError
          else match zget (r_active r) (e_parent_joint e), zget (r_joints r) (e_parent_joint e) with
            | None, _ => Throw OutOfRange
            | _, None => UB
            | Some active, Some j =>
                match zget (r_links r) (rj_child j) with
                | None => UB
                | Some child =>
                    let at_ := match rl_place child with At t => t | _ => iid end in
                    if is_revolute (rj_model j) then
                      let axis := mapp (irot at_) (rj_axis j) in
                      walk_up fuel r point (e_parent e) (set_column cols active (vcross axis (vsub point (itrans at_)), axis))
                    else if is_prismatic (rj_model j) then
                      walk_up fuel r point (e_parent e) (set_column cols active (iapp at_ (rj_axis j), vzero))
                    else if is_fixed (rj_model j) then walk_up fuel r point (e_parent e) cols
                    else Throw RuntimeError
                end
            end
      end
  end.
Fixpoint link_index (links : list rlink) (i : Z) (name : string) : Z :=
  match links with
  | [] => (-1)%Z
  | l :: links => if String.eqb (rl_name l) name then i else link_index links (i + 1)%Z name
  end.
(** 788-848: ComputeLinkPointJacobian.  The point is (p, w) with w = 1 for a point.  Links not at a finite place are not modelled here ([Bad] and
    [Unset] count as the identity). *)
Definition jacobian (r : robot) (name : string) (p : V3) (w : R) : outcome (nat -> column) :=
  let! pl := link_transform r name in
  let t := match pl with At t => t | _ => iid end in
  let point := vadd (mapp (irot t) p) (vscale w (itrans t)) in
  let zero := fun _ : nat => (vzero, vzero) in
  let i := link_index (r_links r) 0 name in
  if (i <? 0)%Z then Ok zero else if (i =? 0)%Z then Ok zero
  else walk_up (length (r_links r)) r point i zero.
(** 850-857: ComputeLinkPointTranslationJacobian. *)
Definition translation_jacobian (r : robot) (name : string) (p : V3) (w : R) : outcome (nat -> V3) :=
  let! cols := jacobian r name p w in Ok (fun i => fst (cols i)).

(** 745-756: the checks of AverageConfigurations. *)
Fixpoint same_types (a b : list joint_model) : bool :=
  match a, b with
  | x :: a, y :: b => is_same_type x y && same_types a b
  | [], [] => true
  | _, _ => false
  end.
Fixpoint finite_values (l : list ext) : option (list R) :=
  match l with
  | [] => Some []
  | Fin x :: l => match finite_values l with Some l => Some (x :: l) | None => None end
  | _ => None
  end.
Fixpoint average_joints (dbg : bool) (rep : list joint_model) (k : nat) (cs : list (list joint_model)) : outcome (list joint_model) :=
  match rep with
  | [] => Ok []
  | j :: rep =>
      let! v := match finite_values (map (fun c => j_value (nth k c default_joint)) cs) with
                | Some l => let! a := average dbg l [] in Ok (Fin a)
                | None => Ok NaN
                end in
      let! m := copy_with j v in
      let! ms := average_joints dbg rep (S k) cs in Ok (m :: ms)
  end.
(** 737-786: AverageConfigurations; AverageContinuousRevolute is the plain average (math_helpers.hpp 305-308). *)
Definition average_configs (dbg : bool) (cs : list (list joint_model)) : outcome (list joint_model) :=
  match cs with
  | [] => Ok []
  | rep :: _ =>
      if forallb (same_types rep) cs then average_joints dbg rep 0 cs else Throw InvalidArgument
  end.
