(** Model of include/arc_utilities/math_helpers.hpp over the real numbers: doubles are reals, so rounding, infinities and
    NaN are not modelled.  M_PI is any positive number [p]. *)
From Coq Require Import Reals Lra.
From Flocq Require Import Core.Raux.
From Verif Require Import Base.
Open Scope R_scope.

Definition Rltb (a b : R) : bool := if Rlt_dec a b then true else false.
Definition Rleb (a b : R) : bool := if Rle_dec a b then true else false.
Definition Reqb (a b : R) : bool := if Req_EM_T a b then true else false.

(** math_helpers.hpp 16-20: CloseEnough. *)
Definition close_enough (p1 p2 threshold : R) : bool := Rleb (Rabs (p2 - p1)) (Rabs threshold).
(** 22-32: CloseEnough for vectors. *)
Fixpoint close_all (v1 v2 : list R) (threshold : R) : bool :=
  match v1, v2 with
  | a :: v1, b :: v2 => if close_enough a b threshold then close_all v1 v2 threshold else false
  | _, _ => true
  end.
Definition close_enough_vec (v1 v2 : list R) (threshold : R) : bool :=
  if negb (length v1 =? length v2)%nat then false else close_all v1 v2 threshold.
(** 35-39: IsApprox. *)
Definition is_approx (p1 p2 precision : R) : bool := close_enough p1 p2 (precision * Rmin (Rabs p1) (Rabs p2)).

(** 70-81: SafetyCheckUnitInterval; the messages printed are not modelled. *)
Definition unit_interval (r : R) : R := if Rltb r 0 then 0 else if Rltb 1 r then 1 else r.
(** 83-89: Interpolate. *)
Definition interpolate (p1 p2 ratio : R) : R := let r := unit_interval ratio in p1 * (1 - r) + p2 * r.
(** 132-149: Interpolate for vectors. *)
Definition interpolate_vec (v1 v2 : list R) (ratio : R) : list R :=
  let r := unit_interval ratio in
  if (length v1 =? length v2)%nat then map (fun c => fst c * (1 - r) + snd c * r) (combine v1 v2) else [].

Section Revolute.
Variable p : R.     (* M_PI *)

(** fmod: the remainder of the division truncated toward zero. *)
Definition fmod (x y : R) : R := x - y * IZR (Ztrunc (x / y)).
(** 52-65: EnforceContinuousRevoluteBounds. *)
Definition enforce (v : R) : R :=
  if Rleb v (- p) || Rltb p v then
    let rem := fmod v (2 * p) in
    if Rleb rem (- p) then rem + 2 * p else if Rltb p rem then rem - 2 * p else rem
  else v.
(** 91-119: InterpolateContinuousRevolute. *)
Definition interpolate_revolute (p1 p2 ratio : R) : R :=
  let r := unit_interval ratio in
  let q1 := enforce p1 in
  let q2 := enforce p2 in
  let diff := q2 - q1 in
  if Rleb (Rabs diff) p then q1 + diff * r
  else
    let diff := if Rltb 0 diff then 2 * p - diff else - 2 * p - diff in
    let i := q1 - diff * r in
    if Rltb p i then i - 2 * p else if Rltb i (- p) then i + 2 * p else i.
(** 175-191: ContinuousRevoluteSignedDistance. *)
Definition signed_distance (p1 p2 : R) : R :=
  let raw := enforce p2 - enforce p1 in
  if Rleb raw (- p) then - (2 * p) - raw else if Rltb p raw then 2 * p - raw else raw.
(** 193-195: ContinuousRevoluteDistance. *)
Definition revolute_distance (p1 p2 : R) : R := Rabs (signed_distance p1 p2).
(** 197-199: AddContinuousRevoluteValues. *)
Definition add_revolute (start change : R) : R := enforce (start + change).
(** 201-208: GetContinuousRevoluteRange. *)
Definition revolute_range (start end_ : R) : R :=
  let raw := signed_distance start end_ in if Rleb 0 raw then raw else 2 * p + raw.
(** 210-228: CheckInContinuousRevoluteRange. *)
Definition in_revolute_range (start range val : R) : bool :=
  let v := enforce val in
  let s := enforce start in
  let delta := signed_distance s v in
  if Rleb 0 delta then Rleb delta range else Rleb (2 * p + delta) range.
(** 230-233: CheckInContinuousRevoluteBounds. *)
Definition in_revolute_bounds (start end_ val : R) : bool := in_revolute_range start (revolute_range start end_) val.
End Revolute.

(** 155-165: SquaredDistance; [None] is INFINITY. *)
Definition squared_distance (p1 p2 : list R) : option R :=
  if (length p1 =? length p2)%nat then Some (fold_left (fun d c => d + (snd c - fst c) * (snd c - fst c)) (combine p1 p2) 0) else None.
(** 167-173: Distance. *)
Definition vec_distance (p1 p2 : list R) : option R :=
  if (length p1 =? length p2)%nat then match squared_distance p1 p2 with Some d => Some (sqrt d) | None => None end else None.
(** 237-244: CalculateTotalDistance. *)
Fixpoint total_distance_from {T} (dist : T -> T -> R) (acc : R) (path : list T) : R :=
  match path with
  | x :: ((y :: _) as rest) => total_distance_from dist (acc + dist x y) rest
  | _ => acc
  end.
Definition total_distance {T} (dist : T -> T -> R) (path : list T) : R := total_distance_from dist 0 path.

(** 258-260: the first index with a non-zero weight, counting on from [i]. *)
Fixpoint starting_idx (i : nat) (weights : list R) : nat :=
  match weights with
  | w :: weights => if Reqb w 0 then starting_idx (S i) weights else i
  | [] => i
  end.
(** 269-277: the loop over the remaining (value, weight) pairs. *)
Definition average_step (s : R * R) (c : R * R) : R * R :=
  let (average, sum) := s in
  let weight := Rabs (snd c) in
  let sum := sum + weight in
  (average + weight / sum * (fst c - average), sum).
(** 251-279: AverageStdVectorDouble.  No weights means weight 1 each.  Without assertions a weight vector shorter than
    the values, and one without a non-zero weight, lead to reads out of range. *)
Definition average (dbg : bool) (values weights : list R) : outcome R :=
  cassert dbg (0 <? length values)%nat (cassert dbg ((length weights =? length values) || (length weights =? 0))%nat (
  let use_weights := negb (length weights =? 0)%nat in
  let start := starting_idx 0 weights in
  cassert dbg (start <? length values)%nat (
  if use_weights && (length weights <? length values)%nat then UB
  else
    let ws := if use_weights then weights else repeat 1 (length values) in
    match skipn start (combine values ws) with
    | [] => UB
    | (v, w) :: rest => cassert dbg (Rltb 0 (Rabs w)) (Ok (fst (fold_left average_step rest (v, Rabs w))))
    end))).
