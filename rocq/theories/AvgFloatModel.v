(** Model of the averages and standard deviations of math_helpers.hpp in IEEE double arithmetic (round to nearest even). *)
From Verif Require Import Base VoxelFloat DynGridFloat.
From Flocq Require Import IEEE754.Bits IEEE754.Binary.

(** a == b on doubles: a zero equals a zero of either sign, NaN equals nothing. *)
Definition f_eqb (a b : fl) : bool := match b64_compare a b with Some Eq => true | _ => false end.
Definition f_zero : fl := f_of_Z 0.

(** math_helpers.hpp:257-261: the first weight that is not zero. *)
Fixpoint fstart (weights : list fl) : nat := match weights with w :: ws => if f_eqb w f_zero then S (fstart ws) else 0%nat | [] => 0%nat end.
(** 270-277: one round of the loop.  Without weights the weight is the constant 1.0, which std::abs would not change. *)
Definition favg_step (s : fl * fl) (c : fl * fl) : fl * fl :=
  let (average, weights_running_sum) := s in
  let weight := b64_abs (snd c) in
  let weights_running_sum := b64_plus NE weights_running_sum weight in
  let effective_weight := b64_div NE weight weights_running_sum in
  (b64_plus NE average (b64_mult NE effective_weight (b64_minus NE (fst c) average)), weights_running_sum).
(** 251-279 AverageStdVectorDouble.  Without assertions, fewer weights than values are read out of bounds (unless there are none), as is a value
    beyond the end. *)
Definition favg (dbg : bool) (values weights : list fl) : outcome fl :=
  cassert dbg (0 <? length values)%nat (cassert dbg ((length weights =? length values) || (length weights =? 0))%nat (
  let use_weights := negb (length weights =? 0)%nat in
  let start := fstart weights in
  cassert dbg (start <? length values)%nat (
  if use_weights && (length weights <? length values)%nat then UB
  else
    let ws := if use_weights then weights else repeat f_one (length values) in
    match skipn start (combine values ws) with
    | [] => UB
    | (v, w) :: rest => cassert dbg (f_lt f_zero (b64_abs w)) (Ok (fst (fold_left favg_step rest (v, b64_abs w))))
    end))).

(** 281-294 ComputeStdDevStdVectorDouble about a given mean.  size() - 1 wraps around to 2^64 - 1 when there are no values and no assertions. *)
Definition fstd_about (dbg : bool) (values : list fl) (mean : fl) : outcome fl :=
  cassert dbg (0 <? length values)%nat (
  if (length values =? 1)%nat then Ok f_zero
  else
    let inv_n_minus_1 := b64_div NE f_one (f_of_Z ((Z.of_nat (length values) - 1) mod 2 ^ 64)) in
    let stddev_sum := fold_left (fun sum x => let delta := b64_minus NE x mean in b64_plus NE sum (b64_mult NE delta delta)) values f_zero in
    Ok (b64_sqrt NE (b64_mult NE stddev_sum inv_n_minus_1))).
(** 296-299 ComputeStdDevStdVectorDouble. *)
Definition fstd (dbg : bool) (values : list fl) : outcome fl := let! mean := favg dbg values [] in fstd_about dbg values mean.
