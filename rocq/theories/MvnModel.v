(** Model of arc_helpers.hpp 1153-1205, MultivariteGaussianDistribution, over the reals.  Eigen's LLT and SelfAdjointEigenSolver and the draws of
    std::normal_distribution are arguments; infinities and NaN, for which the constructor looks, are not modelled. *)
From Coq Require Import Reals.
From Verif Require Import Base MathModel TotpModel ELinModel.
Open Scope R_scope.

Section Mvn.
(** LLT<MatrixXd>(covariance): matrixL() when info() is Success; SelfAdjointEigenSolver: eigenvectors() in columns, eigenvalues(). *)
Context (llt : nat -> mat -> option mat) (eigen : nat -> mat -> mat * vec).
(** 1172-1187: CalculateNormTransform. *)
Definition norm_transform (n : nat) (covariance : mat) : mat :=
  match llt n covariance with
  | Some L => L
  | None =>
      let eigenvectors := fst (eigen n covariance) in
      let eigenvalues := snd (eigen n covariance) in
      fun i l => eigenvectors i l * sqrt (Rmax (eigenvalues l) 0)
  end.
Record mvn := mkMvn { mvn_rows : nat; mvn_mean : vec; mvn_size : nat; mvn_transform : mat }.
(** 1190-1199: the constructor, with the sizes of its arguments.  The decompositions come first: Eigen asserts a square matrix. *)
Definition make_mvn (dbg : bool) (mean_rows : nat) (mean : vec) (rows cols : nat) (covariance : mat) : outcome mvn :=
  if negb (rows =? cols)%nat then (if dbg then AssertFail else UB)
  else cassert dbg (mean_rows =? rows)%nat (Ok (mkMvn mean_rows mean rows (norm_transform rows covariance))).
Context {G : Type} (unit_gaussian_dist : G -> R * G).
(** 1161-1170: Sample, the loop filling [draw]: element 0 first. *)
Fixpoint draws (n : nat) (prng : G) : vec * G :=
  match n with
  | O => (fun _ => 0, prng)
  | S k => let '(draw, prng) := draws k prng in
           let '(x, prng) := unit_gaussian_dist prng in
           (fun i => if (i =? k)%nat then x else draw i, prng)
  end.
(** 1161-1170, 1201-1204: Sample and operator(); sizes that do not fit are left to Eigen, which does not check them in release builds. *)
Definition sample (d : mvn) (prng : G) : outcome (vec * G) :=
  if (mvn_rows d =? mvn_size d)%nat then
    let '(draw, prng) := draws (mvn_rows d) prng in
    Ok (fun i => mapply (mvn_size d) (mvn_transform d) draw i + mvn_mean d i, prng)
  else UB.
End Mvn.
