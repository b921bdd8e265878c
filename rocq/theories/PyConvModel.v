(** Model of src/arc_utilities/conversions.py, normalize_point_msg.py, numpy_conversions.py and marker_utils.py.  Strings have ASCII characters only: \d
    and float also take the digits of other scripts.  parse_file_size computes with doubles, given by Flocq's rounding; the rest is over the real
    numbers, where the norm of a quaternion of length 0 is not used by the theorems (numpy gives NaN). *)
From Coq Require Import Ascii String Reals List Bool ZArith.
From Flocq Require Import Core.
From Verif Require Import PyBase GeoModel.
Import ListNotations.
Open Scope R_scope.

(** ** conversions.py *)
Definition is_digit (c : ascii) : bool := let n := nat_of_ascii c in (48 <=? n)%nat && (n <=? 57)%nat.
(** The longest beginning made of digits, and the rest. *)
Fixpoint digits (s : string) : string * string :=
  match s with
  | EmptyString => (EmptyString, EmptyString)
  | String c s' => if is_digit c then let (d, r) := digits s' in (String c d, r) else (EmptyString, s)
  end.
Definition one_of (cs : list ascii) (c : ascii) : bool := existsb (Ascii.eqb c) cs.
(** An optional character of a class. *)
Definition optional (cs : list ascii) (s : string) : option ascii * string :=
  match s with String c s' => if one_of cs c then (Some c, s') else (None, s) | EmptyString => (None, s) end.
Fixpoint number (acc : Z) (s : string) : Z :=
  match s with EmptyString => acc | String c s' => number (acc * 10 + (Z.of_nat (nat_of_ascii c) - 48)) s' end.
(** The double next to a real number; None is infinity. *)
Definition double (x : R) : option R :=
  let d := round radix2 (FLT_exp (-1074) 53) ZnearestE x in if Rlt_bool d (bpow radix2 1024) then Some d else None.
(** float of digits, a dot or none, and digits. *)
Definition float (ip fp : string) : py (option R) :=
  match ip, fp with
  | EmptyString, EmptyString => Raise ValueError
  | _, _ => Ret (double (IZR (number 0 (ip ++ fp)) / IZR (10 ^ Z.of_nat (String.length fp))))
  end.
Definition multiplier (unit : option ascii) : R :=
  match unit with
  | None => 1
  | Some c => if one_of ["k"; "K"]%char c then 1000 else if one_of ["m"; "M"]%char c then 1000000 else 1000000000
  end.
(** 11-30: parse_file_size.  The classes of characters of the parts of the regular expression that follow each other are disjoint, so that the match
    takes as much as it can for each part in turn.  int of infinity is an OverflowError. *)
Definition parse_file_size (s : string) : py Z :=
  let (ip, s1) := digits s in
  let (dot, s2) := optional ["."]%char s1 in
  let (fp, s3) := digits s2 in
  let (unit, s4) := optional ["k"; "K"; "m"; "M"; "g"; "G"]%char s3 in
  let (b, s5) := optional ["b"; "B"]%char s4 in
  match s5 with
  | EmptyString =>
      let? quantity := float ip fp in
      match quantity with
      | None => Raise OverflowError
      | Some q => match double (q * multiplier unit) with Some p => Ret (ZnearestE p) | None => Raise OverflowError end
      end
  | _ => Raise ValueError
  end.

(** 33-49: normalize_quaternion; a list has no attribute x. *)
Inductive quat_arg := QMsg (q : quat) | QList (l : list R) | QOther.
Definition normalize_quaternion (a : quat_arg) : py quat :=
  match a with
  | QMsg q => let norm := sqrt (qx q ^ 2 + qy q ^ 2 + qz q ^ 2 + qw q ^ 2) in Ret (mkQ (qw q / norm) (qx q / norm) (qy q / norm) (qz q / norm))
  | QList _ => Raise AttributeError
  | QOther => Raise NotImplementedError
  end.

(** tf.transformations.quaternion_from_euler with its default axes, sxyz. *)
Definition quaternion_from_euler (ai aj ak : R) : quat :=
  let ci := cos (ai / 2) in let si := sin (ai / 2) in
  let cj := cos (aj / 2) in let sj := sin (aj / 2) in
  let ck := cos (ak / 2) in let sk := sin (ak / 2) in
  let cc := ci * ck in let cs := ci * sk in let sc := si * ck in let ss := si * sk in
  mkQ (cj * cc + sj * ss) (cj * sc - sj * cs) (cj * ss + sj * cc) (cj * cs - sj * sc).
(** 52-85: convert_to_pose_msg at the time [now]; a header has a stamp and a frame. *)
Record pose := mkPose { position : V3; orientation : quat }.
Record stamped := mkStamped { stamp : Z; frame : string; in_frame : pose }.
Inductive pose_arg := PStamped (p : stamped) | PPose (p : pose) | PList (l : list R) | POther.
Definition convert_to_pose_msg (now : Z) (a : pose_arg) : py stamped :=
  match a with
  | PStamped p => Ret p
  | PPose p => Ret (mkStamped now "" p)
  | PList [x; y; z; r; p; w] => Ret (mkStamped now "" (mkPose (mkV x y z) (quaternion_from_euler r p w)))
  | PList [x; y; z; qx; qy; qz; qw] => Ret (mkStamped now "" (mkPose (mkV x y z) (mkQ qw qx qy qz)))
  | PList _ => Raise ValueError
  | POther => Raise NotImplementedError
  end.
(** 88-98: convert_to_position. *)
Inductive point_arg := TPoint (p : V3) | TStamped (header : Z) (p : V3) | TSeq (l : list R).
Definition convert_to_position (a : point_arg) : py V3 :=
  match a with
  | TPoint p | TStamped _ p => Ret p
  | TSeq l => match l with x :: y :: z :: _ => Ret (mkV x y z) | _ => Raise IndexError end
  end.
(** 101-105: convert_to_positions. *)
Fixpoint convert_to_positions {K} (d : list (K * point_arg)) : py (list (K * V3)) :=
  match d with
  | [] => Ret []
  | (k, v) :: d' => let? p := convert_to_position v in let? r := convert_to_positions d' in Ret ((k, p) :: r)
  end.

(** ** normalize_point_msg.py 6-13: make_unit_point. *)
Definition make_unit_point (x y z : R) : py V3 :=
  let mag := sqrt (x ^ 2 + y ^ 2 + z ^ 2) in
  if Rlt_bool 0 mag then Ret (mkV (x / mag) (y / mag) (z / mag)) else Raise PyAssertionError.

(** ** numpy_conversions.py 3-19: ListPointsToNpArray.  The array as its columns; numpy.empty leaves anything in it.  Of the 4x4 transformation only
    the first three rows matter: an [iso]. *)
Fixpoint set_column (arr : list V3) (ind : nat) (v : V3) : list V3 :=
  match arr, ind with
  | [], _ => []
  | _ :: r, O => v :: r
  | a :: r, S i => a :: set_column r i v
  end.
Definition list_points_to_array (empty : list V3) (points : list V3) (transform : option iso) : list V3 :=
  fold_left (fun arr ind =>
               let p := nth ind points vzero in
               set_column arr ind (match transform with
                                   | Some t => mkV (m00 (irot t) * vx p + m01 (irot t) * vy p + m02 (irot t) * vz p + vx (itrans t) * 1)
                                                   (m10 (irot t) * vx p + m11 (irot t) * vy p + m12 (irot t) * vz p + vy (itrans t) * 1)
                                                   (m20 (irot t) * vx p + m21 (irot t) * vy p + m22 (irot t) * vz p + vz (itrans t) * 1)
                                   | None => mkV (vx p) (vy p) (vz p)
                                   end))
            (seq 0 (length points)) empty.

(** ** marker_utils.py 4-10: scale_marker_array; [T] is all of a marker but its scale. *)
Record marker (T : Type) := mkMarker { m_rest : T; m_scale : V3 }.
Arguments mkMarker {T} _ _.
Arguments m_rest {T} _.
Arguments m_scale {T} _.
Definition scale_marker_array {T} (ms : list (marker T)) (s : R) : list (marker T) :=
  map (fun m => mkMarker (m_rest m) (mkV (vx (m_scale m) * s) (vy (m_scale m) * s) (vz (m_scale m) * s))) ms.
