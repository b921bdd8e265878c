(** Model of include/arc_utilities/simple_dtw.hpp. *)
From Verif Require Import Base Cost.

Section Dtw.
Context {C : cost}.

(** simple_dtw.hpp 38: dtw_matrix_, an Eigen::MatrixXd: its size and its coefficients.  Reading or writing outside the
    size is undefined behaviour (an Eigen assertion). *)
Record mat := mkMat { m_rows : nat; m_cols : nat; m_at : nat -> nat -> C }.
Definition in_mat (m : mat) (i j : nat) : bool := (i <? m_rows m) && (j <? m_cols m).
Definition mget (m : mat) (i j : nat) : outcome C := if in_mat m i j then Ok (m_at m i j) else UB.
Definition mset (m : mat) (i j : nat) (v : C) : outcome mat :=
  if in_mat m i j then Ok (mkMat (m_rows m) (m_cols m) (fun a b => if (a =? i) && (b =? j) then v else m_at m a b)) else UB.

(** 22-36: InitializeMatrix: the matrix is only replaced when it is too small. *)
Definition initialize_matrix (m : mat) (n1 n2 : nat) : mat :=
  let rows := n1 + 1 in
  let cols := n2 + 1 in
  if (m_rows m <? rows) || (m_cols m <? cols) then
    if (1 <? rows) && (1 <? cols) then
      mkMat rows cols (fun i j => if ((1 <=? i) && (i <? rows) && (j =? 0)) || ((i =? 0) && (1 <=? j) && (j <? cols)) then cinf else czero)
    else mkMat rows cols (fun _ _ => czero)
  else m.

(** 41-45: the constructors (an Eigen::MatrixXd starts with no rows and columns). *)
Definition new_dtw (n1 n2 : nat) : mat := initialize_matrix (mkMat 0 0 (fun _ _ => czero)) n1 n2.

(** 57-69: the choice among the three neighbours. *)
Definition pick (im1j im1jm1 ijm1 : C) : C :=
  if cltb im1j im1jm1 && cltb im1j ijm1 then im1j else if cltb ijm1 im1j && cltb ijm1 im1jm1 then ijm1 else im1jm1.

(** 51-75: the two loops; [i] and [j] count from 1.  The code computes index_cost + prev_cost; IEEE addition commutes. *)
Fixpoint row_loop {B} (dist : B -> C) (m : mat) (i j : nat) (second : list B) : outcome mat :=
  match second with
  | [] => Ok m
  | y :: second =>
    let! im1j := mget m (i - 1) j in
    let! im1jm1 := mget m (i - 1) (j - 1) in
    let! ijm1 := mget m i (j - 1) in
    let! m := mset m i j (cadd (pick im1j im1jm1 ijm1) (dist y)) in
    row_loop dist m i (j + 1) second
  end.
Fixpoint rows_loop {A B} (dist : A -> B -> C) (m : mat) (i : nat) (first : list A) (second : list B) : outcome mat :=
  match first with
  | [] => Ok m
  | x :: first => let! m := row_loop (dist x) m i 1 second in rows_loop dist m (i + 1) first second
  end.
(** 47-78: EvaluateWarpingCost; the matrix it leaves behind is part of the evaluator's state. *)
Definition evaluate {A B} (m : mat) (first : list A) (second : list B) (dist : A -> B -> C) : outcome (mat * C) :=
  let m := initialize_matrix m (length first) (length second) in
  let! m := rows_loop dist m 1 first second in
  let! c := mget m (length first) (length second) in
  Ok (m, c).
(** 85-90: ComputeDTWDistance. *)
Definition compute_dtw_distance {A B} (first : list A) (second : list B) (dist : A -> B -> C) : outcome C :=
  let! (_, c) := evaluate (new_dtw 0 0) first second dist in Ok c.
End Dtw.
Arguments mat : clear implicits.
