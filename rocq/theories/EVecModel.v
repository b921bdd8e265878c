(** Model of the functions on vectors of include/arc_utilities/eigen_helpers.hpp over the real numbers: rounding, infinities and NaN are not
    modelled, nor are printed warnings.  A vector of [n] entries is a function from the index as in TotpModel; the vectors given to one call
    have the same size (Eigen asserts it), except where a model says otherwise. *)
From Coq Require Import Reals List Bool.
From Verif Require Import Base MathModel TotpModel.
Import ListNotations.
Open Scope R_scope.

(** std::numeric_limits<double>::epsilon(). *)
Definition eps : R := / 2 ^ 52.
(** 96-104: ClampNorm (a matrix is the vector of its entries). *)
Definition clamp_norm (dbg : bool) (n : nat) (v : vec) (max_norm : R) : outcome vec :=
  cassert dbg (Rltb 0 max_norm) (Ok (if Rltb max_norm (norm n v) then fun i => v i * (max_norm / norm n v) else v)).
(** 137-144: SafeNormal. *)
Definition safe_normal (n : nat) (v : vec) : vec := if Rltb eps (norm n v) then fun i => v i / norm n v else v.

(** 817-832: VectorProjection. *)
Definition projection (n : nat) (base v : vec) : vec :=
  let b2 := dot n base base in if Rltb 0 b2 then vscale (dot n base v / b2) base else vzero.
(** 835-840: VectorRejection. *)
Definition rejection (n : nat) (base v : vec) : vec := vsub v (projection n base v).
(** Eigen's cross product; entries from 3 on mean nothing. *)
Definition cross (u v : vec) : vec := fun i =>
  match i with
  | O => u 1%nat * v 2%nat - u 2%nat * v 1%nat
  | 1%nat => u 2%nat * v O - u O * v 2%nat
  | _ => u O * v 1%nat - u 1%nat * v O
  end.
(** 843-865: VectorProjectionToPlane. *)
Definition plane_projection (p1 p2 v : vec) : outcome vec :=
  let u1 := normalized 3 p1 in
  let u2 := normalized 3 p2 in
  let mag := Rabs (dot 3 u1 u2) in
  if is_approx mag 1 (1 / 10 ^ 10) then Throw InvalidArgument
  else Ok (rejection 3 (cross u1 u2) v).

(** 882-901: DistanceToLine. *)
Definition distance_to_line (dbg : bool) (point unit_vector x : vec) : outcome (R * R) :=
  let u := normalized 3 unit_vector in
  let delta := vsub x point in
  let along := dot 3 u delta in
  let projected := vadd point (fun i => u i * along) in
  let distance := norm 3 (vsub projected x) in
  cassert dbg (is_approx (distance * distance + along * along) (dot 3 delta delta) (1 / 10 ^ 10)) (Ok (distance, along)).

(** 908-938: ConvertConeToPyramid.  normalize() and normalized() leave a zero vector alone. *)
Definition basis (k : nat) : vec := fun i => if Nat.eqb i k then 1 else 0.
Definition vneg (v : vec) : vec := fun i => - v i.
Definition cone_pyramid (dbg : bool) (dir : vec) (min_dot : R) : outcome (list vec) :=
  let tmp := vadd (vadd (rejection 3 dir (basis 0)) (rejection 3 dir (basis 1))) (rejection 3 dir (basis 2)) in
  cassert dbg (Rltb (1 / 10 ^ 6) (norm 3 tmp)) (
  let p1 := normalized 3 tmp in
  let p2 := normalized 3 (cross dir p1) in
  let p3 := vneg p1 in
  let p4 := vneg p2 in
  let dist := tan (acos min_dot) in
  let ray p := vadd dir (vscale dist p) in
  let normal a b := vneg (normalized 3 (cross (ray a) (ray b))) in
  Ok [normal p1 p2; normal p2 p3; normal p3 p4; normal p4 p1]).

(** 945-959: AngleDefinedByPoints. *)
Definition angle_points (n : nat) (a b c : vec) : R :=
  let v1 := normalized n (vsub a b) in
  let v2 := normalized n (vsub c b) in
  acos (Rmax (-1) (Rmin (dot n v1 v2) 1)).
(** 961-968: WeightedDotProduct and WeightedSquaredNorm. *)
Definition wdot (n : nat) (u v w : vec) : R := dot n (fun i => u i * w i) v.
(** 970-972: WeightedNorm; None is the NaN that sqrt gives for a negative number. *)
Definition wnorm (n : nat) (v w : vec) : option R := if Rltb (wdot n v v w) 0 then None else Some (sqrt (wdot n v v w)).
(** The quotient in WeightedCosineAngleBetweenVectors, clamped by std::min and std::max: a NaN (a NaN norm, or 0 / 0) becomes -1, an infinity
    the bound of its sign. *)
Definition clamped_quotient (x : R) (d : option R) : R :=
  match d with
  | None => -1
  | Some d => if Reqb d 0 then (if Rltb 0 x then 1 else -1) else Rmax (-1) (Rmin (x / d) 1)
  end.
(** 974-981: WeightedCosineAngleBetweenVectors.  A NaN fails the assertion. *)
Definition wcosine (dbg : bool) (n : nat) (u v w : vec) : outcome R :=
  match wnorm n u w, wnorm n v w with
  | Some nu, Some nv => cassert dbg (Rltb 0 nu && Rltb 0 nv) (Ok (clamped_quotient (wdot n u v w) (Some (nu * nv))))
  | _, _ => cassert dbg false (Ok (clamped_quotient (wdot n u v w) None))
  end.
(** 983-986: WeightedAngleBetweenVectors. *)
Definition wangle (dbg : bool) (n : nat) (u v w : vec) : outcome R :=
  let! c := wcosine dbg n u v w in Ok (acos c).

(** 992-1051: Hyperplane. *)
Record hyperplane := mkH { h_origin : vec; h_normal : vec }.
(** 1012-1018: GetNormedDotProduct. *)
Definition normed_dot (n : nat) (h : hyperplane) (p : vec) : R := dot n (safe_normal n (vsub p (h_origin h))) (h_normal h).
(** 1020-1025: GetRawDotProduct. *)
Definition raw_dot (n : nat) (h : hyperplane) (p : vec) : R := dot n (vsub p (h_origin h)) (h_normal h).
(** 1027-1029: RejectVectorOntoPlane. *)
Definition reject_vector (n : nat) (h : hyperplane) (v : vec) : vec := projection n (h_normal h) v.
(** 1031-1034: GetSquaredDistanceToPlane. *)
Definition plane_distance2 (n : nat) (h : hyperplane) (p : vec) : R :=
  let d := projection n (h_normal h) (vsub p (h_origin h)) in dot n d d.
(** 1036-1039: GetDistanceToPlane. *)
Definition plane_distance (n : nat) (h : hyperplane) (p : vec) : R := norm n (projection n (h_normal h) (vsub p (h_origin h))).
(** 1041-1043: ProjectVectorOntoPlane. *)
Definition project_vector (n : nat) (h : hyperplane) (v : vec) : vec := rejection n (h_normal h) v.
(** 1045-1050: ProjectPointOntoPlane. *)
Definition project_point (n : nat) (h : hyperplane) (p : vec) : vec := vadd (h_origin h) (rejection n (h_normal h) (vsub p (h_origin h))).

(** 718-727: the loop of AverageEigenVector: as in MathModel.average, entry by entry. *)
Definition vaverage_step (s : vec * R) (c : vec * R) : vec * R :=
  let (avg, sum) := s in
  let weight := Rabs (snd c) in
  let sum := sum + weight in
  let effective := weight / sum in
  (vadd avg (vscale effective (vsub (fst c) avg)), sum).
(** 699-729: AverageEigenVector.  Reads out of range as in MathModel.average. *)
Definition vaverage (dbg : bool) (vectors : list vec) (weights : list R) : outcome vec :=
  cassert dbg (0 <? length vectors)%nat (cassert dbg ((length weights =? length vectors) || (length weights =? 0))%nat (
  let use_weights := negb (length weights =? 0)%nat in
  let start := starting_idx 0 weights in
  cassert dbg (start <? length vectors)%nat (
  if use_weights && (length weights <? length vectors)%nat then UB
  else
    let ws := if use_weights then weights else repeat 1 (length vectors) in
    match skipn start (combine vectors ws) with
    | [] => UB
    | (v, w) :: rest => cassert dbg (Rltb 0 (Rabs w)) (Ok (fst (fold_left vaverage_step rest (v, Rabs w))))
    end))).
