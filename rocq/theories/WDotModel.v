(** Model of the weighted products, norms and cosines of include/arc_utilities/eigen_helpers.hpp 961-981 in IEEE double arithmetic (round to nearest even, products
    and sums not contracted to one operation).  The order in which Eigen adds is a parameter, as in VecDistModel. *)
From Verif Require Import Base VoxelFloat DynGridFloat VoxelMakeModel VecDistModel.
From Flocq Require Import IEEE754.Bits IEEE754.Binary.

Section Weighted.
Variable order : nat -> tree.
Variable dbg : bool.   (* assertions are compiled in, those of Eigen too *)

Definition products (v1 v2 weights : list fl) : list fl :=
  map (fun p => b64_mult NE (b64_mult NE (fst (fst p)) (snd p)) (snd (fst p))) (combine (combine v1 v2) weights).
(** 961-964: WeightedDotProduct; Eigen asserts that the sizes are the same. *)
Definition weighted_dot (v1 v2 weights : list fl) : outcome fl :=
  if ((length v1 =? length weights) && (length v1 =? length v2))%nat then
    Ok (match products v1 v2 weights with [] => f_zero | l => add_up (order (length l)) l end)
  else if dbg then AssertFail else UB.
(** 966-968: WeightedSquaredNorm; 970-972: WeightedNorm. *)
Definition weighted_squared (v weights : list fl) : outcome fl := weighted_dot v v weights.
Definition weighted_norm (v weights : list fl) : outcome fl := let! s := weighted_squared v weights in Ok (b64_sqrt NE s).
(** 980: std::max(-1.0, std::min(result, 1.0)). *)
Definition clamp_cosine (r : fl) : fl :=
  let m := if f_lt f_one r then f_one else r in
  if f_lt (f_of_Z (-1)) m then m else f_of_Z (-1).
(** 974-981: WeightedCosineAngleBetweenVectors. *)
Definition weighted_cosine (v1 v2 weights : list fl) : outcome fl :=
  let! n1 := weighted_norm v1 weights in
  let! n2 := weighted_norm v2 weights in
  if dbg && negb (f_lt f_zero n1 && f_lt f_zero n2) then AssertFail
  else
    let! d := weighted_dot v1 v2 weights in
    Ok (clamp_cosine (b64_div NE d (b64_mult NE n1 n2))).
End Weighted.
