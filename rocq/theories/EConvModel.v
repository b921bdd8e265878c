(** Model of the path lengths, distance matrices and conversions of include/arc_utilities/eigen_helpers.hpp (365-516, 582-688). *)
From Coq Require Import Reals List Bool ZArith.
From Verif Require Import Base MathModel TotpModel.
Import ListNotations.
Open Scope R_scope.

(** Write to an array of doubles, in range. *)
Fixpoint put (l : list R) (i : nat) (x : R) : list R :=
  match l, i with
  | [], _ => []
  | _ :: l, O => x :: l
  | y :: l, S i => y :: put l i x
  end.
(** Length of the step to point [idx]. *)
Definition step_length (points : list vec) (idx : nat) : R := norm 3 (vsub (nth idx points vzero) (nth (idx - 1) points vzero)).
(** The values 1, ..., n - 1 of the loop variables; none for an empty vector. *)
Definition steps (points : list vec) : list nat := seq 1 (length points - 1).
(** 365-374: CalculateTotalDistance. *)
Definition total_distance (points : list vec) : R := fold_left (fun distance idx => distance + step_length points idx) (steps points) 0.
(** 376-387: CalculateIndividualDistances.  The vector starts with zeros. *)
Definition individual_distances (points : list vec) : list R :=
  let distances := repeat 0 (length points) in
  if (0 <? length points)%nat then fold_left (fun d idx => put d idx (step_length points idx)) (steps points) (put distances 0 0) else distances.
(** 389-401: CalculateCumulativeDistances. *)
Definition cumulative_distances (points : list vec) : list R :=
  let distances := repeat 0 (length points) in
  if (0 <? length points)%nat then fold_left (fun d idx => put d idx (nth (idx - 1) d 0 + step_length points idx)) (steps points) (put distances 0 0) else distances.

(** 410-430: CalculateSquaredDistanceMatrix of the columns [set]: the writes (row, column, value) of iteration [i] of the outer loop. *)
Definition row_writes (len : nat) (set : list vec) (i : nat) : list (nat * nat * R) :=
  let n := length set in
  (i, i, 0) :: flat_map (fun j =>
      let d := vsub (nth i set vzero) (nth j set vzero) in
      let sq_dist := dot len d d in
      [(i, j, sq_dist); (j, i, sq_dist)]) (seq (S i) (n - S i)).
Definition matrix_writes (len : nat) (set : list vec) : list (nat * nat * R) := flat_map (row_writes len set) (seq 0 (length set)).
(** One write; cells not yet written hold arbitrary values, those of the initial matrix. *)
Definition write (m : nat -> nat -> R) (w : nat * nat * R) : nat -> nat -> R :=
  let '(i, j, x) := w in fun a b => if ((a =? i) && (b =? j))%nat then x else m a b.
(** The matrix after the writes in the order of [order]: matrix_writes for the sequential loop; with ENABLE_PARALLEL_DISTANCE_MATRIX the iterations are
    spread over threads, and any interleaving of their writes may happen. *)
Definition distance2_matrix (init : nat -> nat -> R) (order : list (nat * nat * R)) : nat -> nat -> R := fold_left write order init.
(** 439-443: CalculateDistanceMatrix. *)
Definition distance_matrix (init : nat -> nat -> R) (order : list (nat * nat * R)) : nat -> nat -> R := fun a b => sqrt (distance2_matrix init order a b).
(** 453-458: CalculateSquaredDistanceToSet. *)
Definition distance2_to_set (len : nat) (set : list vec) (point : vec) : list R := map (fun c => dot len (vsub c point) (vsub c point)) set.
(** 468-473: CalculateDistanceToSet. *)
Definition distance_to_set (len : nat) (set : list vec) (point : vec) : list R := map sqrt (distance2_to_set len set point).
(** Eigen's minCoeff(&index) (3.3): a running minimum, replaced by strictly smaller entries. *)
Fixpoint min_coeff (l : list R) (i : nat) (best : R) (best_i : nat) : nat :=
  match l with
  | [] => best_i
  | x :: l => if Rltb x best then min_coeff l (S i) x i else min_coeff l (S i) best best_i
  end.
(** 483-491: ClosestPointInSet. *)
Definition closest_point (dbg : bool) (len : nat) (set : list vec) (point : vec) : outcome nat :=
  cassert dbg (0 <? length set)%nat (
  match distance2_to_set len set point with
  | [] => UB
  | x :: l => Ok (min_coeff l 1 x 0)
  end).
(** 501-516: SquaredDistancesBetweenPointSets: entry (a, b). *)
Definition distances2_between (len : nat) (A B : list vec) : list (list R) :=
  map (fun a => map (fun b => dot len (vsub a b) (vsub a b)) B) A.

Section Conversions.
Context {T : Type}.
(** 582-585: StdVectorDoubleToEigenVector3d. *)
Definition std_to_vector3 (dbg : bool) (v : list T) : outcome (T * T * T) :=
  cassert dbg (length v =? 3)%nat (match v with x :: y :: z :: _ => Ok (x, y, z) | _ => UB end).
(** 596-598: EigenVector3dToStdVectorDouble. *)
Definition vector3_to_std (p : T * T * T) : list T := let '(x, y, z) := p in [x; y; z].
(** 676-684: StdVectorDoubleToEigenQuaterniond, as (w, x, y, z), the order of Eigen's constructor. *)
Definition std_to_quaternion (dbg : bool) (v : list T) : outcome (T * T * T * T) :=
  cassert dbg (length v =? 4)%nat (match v with v0 :: v1 :: v2 :: v3 :: _ => Ok (v3, v0, v1, v2) | _ => UB end).
(** 686-688: EigenQuaterniondToStdVectorDouble. *)
Definition quaternion_to_std (q : T * T * T * T) : list T := let '(w, x, y, z) := q in [x; y; z; w].
(** 609-622: VectorEigenVectorToEigenVectorX: [LENGTH] is the template argument, -1 for vectors of dynamic size (Eigen::Dynamic).  The segments of a
    fixed size L > 0 are written one after the other; the vectors of a fixed size have that size.  A segment of size -1 fails an assertion of Eigen. *)
Definition join (dbg : bool) (LENGTH : Z) (vs : list (list T)) : outcome (list T) :=
  cassert dbg (0 <? length vs)%nat (
  match vs with
  | [] => UB
  | _ => if (0 <=? LENGTH)%Z then Ok (concat vs) else if dbg then AssertFail else UB
  end).
(** [n] segments of [len] entries from the front. *)
Fixpoint segments (len n : nat) (l : list T) : list (list T) :=
  match n with
  | O => []
  | S n => firstn len l :: segments len n (skipn len l)
  end.
(** 624-642 and 644-660: EigenVectorXToVectorEigenVector and StdVectorXToVectorEigenVector, for LENGTH > 0. *)
Definition split (dbg : bool) (len : nat) (l : list T) : outcome (list (list T)) :=
  cassert dbg (length l mod len =? 0)%nat (Ok (segments len (length l / len) l)).
End Conversions.
