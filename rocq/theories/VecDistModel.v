(** Model of the distances of Eigen::VectorXd of include/arc_utilities/eigen_helpers.hpp 326-331 in IEEE double arithmetic (round to nearest even, products and
    sums not contracted to one operation).  Eigen adds the squares in an order that depends on the size, the compiler and the processor: the order is a parameter. *)
From Verif Require Import Base VoxelFloat VoxelMakeModel.
From Flocq Require Import IEEE754.Bits IEEE754.Binary.

(** An order of additions: which entries, and how the sums are bracketed. *)
Inductive tree := Entry (i : nat) | Plus (l r : tree).
Fixpoint add_up (t : tree) (l : list fl) : fl :=
  match t with Entry i => nth i l f_zero | Plus a c => b64_plus NE (add_up a l) (add_up c l) end.

Section Distances.
Variable order : nat -> tree.   (* for vectors of this size, if not 0 *)
Variable dbg : bool.            (* assertions are compiled in, those of Eigen too *)

(** squaredNorm() of Eigen: 0 without entries. *)
Definition squared_norm (l : list fl) : fl :=
  match l with [] => f_zero | _ => add_up (order (length l)) (map (fun d => b64_mult NE d d) l) end.
(** v2 - v1: Eigen asserts that the sizes are the same. *)
Definition difference (v1 v2 : list fl) : outcome (list fl) :=
  if (length v1 =? length v2)%nat then Ok (map (fun p => b64_minus NE (snd p) (fst p)) (combine v1 v2)) else if dbg then AssertFail else UB.

(** 326-329: SquaredDistance. *)
Definition squared_distance (v1 v2 : list fl) : outcome fl :=
  if negb (length v1 =? length v2)%nat && dbg then AssertFail
  else let! d := difference v1 v2 in Ok (squared_norm d).
(** 331: Distance. *)
Definition distance (v1 v2 : list fl) : outcome fl := let! d := difference v1 v2 in Ok (b64_sqrt NE (squared_norm d)).
End Distances.
