(** Model of thin_plate_spline.hpp.

    Points are columns [nat -> R], point sets are lists of them; doubles are real numbers.  DIMENSIONS is [d]
    (2 or 3, static_asserts 19-23).  Sets with a wrong number of rows are not modelled (static_asserts and
    Eigen's own asserts). *)
From Coq Require Import Reals.
From Verif Require Import Base MathModel TotpModel ELinModel EConvModel.
Open Scope R_scope.

(** 151-155: the members.  A PointSet of coefficients is the matrix [row, column]. *)
Record tps := mkTps { s_template : list vec; s_target : list vec; s_affine : mat; s_warp : mat; s_solved : bool }.

Section Tps.
(** [d]: DIMENSIONS.  [solve size A b]: A.colPivHouseholderQr().solve(b) for a square A, one column of B at a
    time (Eigen; used with the contract stated in TpsProps).  [init]: the contents of the uninitialized matrix
    in CalculateSquaredDistanceMatrix. *)
Variables (d : nat) (solve : nat -> mat -> vec -> vec) (init : mat).

(** 131-149: KernelFunction. *)
Definition kernel (r_sq : R) : R :=
  if (d =? 2)%nat then (if Reqb r_sq 0 then 0 else r_sq * ln r_sq)
  else (if Reqb r_sq 0 then 0 else - sqrt r_sq).

(** A point with a row of ones below (57, 118). *)
Definition homogeneous (p : vec) : vec := fun i => if (i <? d)%nat then p i else 1.

(** 25: the default constructor; the coefficients are not initialized. *)
Definition default_tps (affine warp : mat) : tps := mkTps [] [] affine warp false.
(** 48-59: setTemplatePoints. *)
Definition set_template (points : list vec) (s : tps) : tps :=
  mkTps (map homogeneous points) (s_target s) (s_affine s) (s_warp s) false.
(** 65-74: setTargetPoints. *)
Definition set_target (points : list vec) (s : tps) : tps :=
  mkTps (s_template s) points (s_affine s) (s_warp s) false.

(** 87-88, 95-97: the matrix A: kernel, transposed template; template, zero. *)
Definition system (template : list vec) : mat :=
  let n := length template in
  let r_squared := distance2_matrix init (matrix_writes (d + 1) template) in
  fun i j =>
    if (i <? n)%nat then (if (j <? n)%nat then kernel (r_squared i j) else nth i template vzero (j - n)%nat)
    else (if (j <? n)%nat then nth j template vzero (i - n)%nat else 0).
(** 98-99: column [c] of the matrix B: target transposed, zero. *)
Definition right_side (target : list vec) (c : nat) : vec :=
  fun i => if (i <? length target)%nat then nth i target vzero c else 0.

(** 76-106: solveForCoeffs. *)
Definition solve_coeffs (s : tps) : outcome tps :=
  if (length (s_template s) <? 1)%nat || (length (s_target s) <? 1)%nat then Throw InvalidArgument
  else if negb (length (s_template s) =? length (s_target s))%nat then Throw InvalidArgument
  else
    let n := length (s_template s) in
    let params := fun c => solve (n + d + 1)%nat (system (s_template s)) (right_side (s_target s) c) in
    Ok (mkTps (s_template s) (s_target s) (fun c j => params c (n + j)%nat) (fun c i => params c i) true).

(** 37-43: the constructor from two point sets. *)
Definition make_tps (affine warp : mat) (template target : list vec) : outcome tps :=
  solve_coeffs (set_target target (set_template template (default_tps affine warp))).

(** 108-128: interpolate; the spline is solved first when it has to be. *)
Definition interpolate (s : tps) (points : list vec) : outcome (tps * list vec) :=
  let! s := (if s_solved s then Ok s else solve_coeffs s) in
  let hpoints := map homogeneous points in
  let r_squared := distances2_between (d + 1) (s_template s) hpoints in
  Ok (s, map (fun b c =>
            dot (d + 1) (s_affine s c) (nth b hpoints vzero)
            + dot (length (s_template s)) (s_warp s c) (fun i => kernel (nth b (nth i r_squared []) 0)))
          (seq 0 (length points))).
End Tps.
