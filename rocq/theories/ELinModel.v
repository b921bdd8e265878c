(** Model of the linear algebra of include/arc_utilities/eigen_helpers.hpp (744-785, 1056-1180) over the real numbers.  The decompositions of Eigen are
    arguments; the theorems assume their documented results. *)
From Coq Require Import Reals List Bool ZArith.
From Verif Require Import Base MathModel TotpModel EVecModel.
Import ListNotations.
Open Scope R_scope.

(** Entry (row, column); the sizes are given separately. *)
Definition mat := nat -> nat -> R.
Definition mtr (A : mat) : mat := fun i j => A j i.
Definition mid : mat := fun i j => if (i =? j)%nat then 1 else 0.
(** Product of an r x n and an n x c matrix; of a matrix with n columns and a vector. *)
Definition mmul (n : nat) (A B : mat) : mat := fun i j => dot n (A i) (fun k => B k j).
Definition mapply (n : nat) (A : mat) (x : vec) : vec := fun i => dot n (A i) x.
(** lhs += value * Identity. *)
Definition damped (M : mat) (value : R) : mat := fun i j => M i j + value * mid i j.

(** 1141-1159: WeightedLeastSquaresSolver for [A] with [m] rows; [smin]: the least singular value (jacobiSvd), [solve]: llt().solve. *)
Definition wls (smin : mat -> R) (solve : mat -> vec -> vec) (m : nat) (A : mat) (b w : vec) (threshold value : R) : vec :=
  let lhs := mmul m (fun i k => mtr A i k * w k) A in
  let minimum_singular_value := smin lhs in
  let lhs := if Rltb minimum_singular_value threshold then damped lhs value else lhs in
  solve lhs (mapply m (mtr A) (fun i => w i * b i)).
(** 1161-1178: UnderdeterminedSolver for an m x n matrix. *)
Definition underdetermined (dbg : bool) (smin : mat -> R) (solve : mat -> vec -> vec) (m n : nat) (A : mat) (b : vec) (threshold value : R) : outcome vec :=
  cassert dbg (m <? n)%nat (
  let d := mmul n A (mtr A) in
  let minimum_singular_value := smin d in
  let d := if Rltb minimum_singular_value threshold then damped d value else d in
  Ok (mapply m (mtr A) (solve d b))).

(** A singular value decomposition: the columns of U and of V that belong to the singular values, and those. *)
Record svd_result := mkSvd { svd_u : mat; svd_s : vec; svd_v : mat }.
(** 1104-1112: the inverted singular values. *)
Definition inverted (rcond s : R) : R := if Rleb (Rabs s) rcond then 0 else 1 / s.
(** 1113-1121: V * S * U'. *)
Definition pinv_tall (svd : nat -> nat -> mat -> svd_result) (rows cols : nat) (a : mat) (rcond : R) : mat :=
  let r := svd rows cols a in
  let k := Nat.min rows cols in
  mmul k (fun j l => svd_v r j l * inverted rcond (svd_s r l)) (mtr (svd_u r)).
(** 1091-1128: Pinv. *)
Definition pinv (svd : nat -> nat -> mat -> svd_result) (rows cols : nat) (b : mat) (rcond : R) (enable_flip : bool) : mat :=
  if enable_flip && (rows <? cols)%nat then mtr (pinv_tall svd cols rows (mtr b) rcond) else pinv_tall svd rows cols b rcond.
(** 1087: SuggestedRcond. *)
Definition suggested_rcond : R := 1 / 1000.

(** 1070-1079: the column of the least singular value, the first of several; the index -1 of no singular values is None. *)
Fixpoint least_index (s : vec) (k : nat) : option nat :=
  match k with
  | O => None
  | S k => match least_index s k with None => Some k | Some i => if Rltb (s k) (s i) then Some k else Some i end
  end.
(** 1056-1085: FitPlaneToPoints for points with [n] entries. *)
Definition fit_plane (dbg : bool) (svd : nat -> nat -> mat -> svd_result) (n : nat) (points : list vec) : outcome hyperplane :=
  let! centroid := vaverage dbg points [] in
  let centered : mat := fun i idx => vsub (nth idx points vzero) centroid i in
  let r := svd n (length points) centered in
  match least_index (svd_s r) (Nat.min n (length points)) with
  | None => if dbg then AssertFail else UB
  | Some best => Ok (mkH centroid (safe_normal n (fun i => svd_u r i best)))
  end.

(** 769-777: the eigenvector of the largest eigenvalue, the first of several. *)
Fixpoint largest_index (e : vec) (k : nat) : nat :=
  match k with
  | O => 0
  | S O => 0
  | S k => let i := largest_index e k in if Rltb (e i) (e k) then k else i
  end.
(** 755-764: q q^T summed over the columns weight * q. *)
Definition quat_matrix (qs : list vec) (ws : list R) : mat :=
  fun i j => fold_left (fun s c => s + (Rabs (snd c) * fst c i) * (Rabs (snd c) * fst c j)) (combine qs ws) 0.
(** 744-785: AverageEigenQuaterniond; quaternions as (w, x, y, z); [solver]: eigenvalues and eigenvectors (as columns) of a 4 x 4 matrix.  Weights of
    the wrong number are ignored in the release build. *)
Definition quat_average (dbg : bool) (solver : mat -> vec * mat) (qs : list vec) (ws : list R) : outcome vec :=
  cassert dbg (0 <? length qs)%nat (cassert dbg ((length ws =? length qs) || (length ws =? 0))%nat (
  match qs with
  | [q] => cassert dbg ((length ws =? 0)%nat || negb (Reqb (hd 0 ws) 0)) (Ok q)
  | _ =>
    let ws := if (length ws =? length qs)%nat then ws else repeat 1 (length qs) in
    let (e, v) := solver (quat_matrix qs ws) in
    let best := largest_index e 4 in
    Ok (fun i => v i best)
  end)).
