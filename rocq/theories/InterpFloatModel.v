(** Model of CloseEnough and Interpolate of include/arc_utilities/math_helpers.hpp in doubles. *)
From Verif Require Import Base VoxelFloat DynGridFloat.
From Flocq Require Import IEEE754.Bits IEEE754.Binary.

Definition f_le (a b : fl) : bool := match b64_compare a b with Some Lt | Some Eq => true | _ => false end.
Definition f_0 : fl := f_of_Z 0.
(** math_helpers.hpp 16-20: CloseEnough.  The absolute value of a NaN is a NaN. *)
Definition f_abs (x : fl) : fl := match x with B754_zero _ _ _ => B754_zero _ _ false | B754_infinity _ _ _ => B754_infinity _ _ false | B754_nan _ _ _ pl H => B754_nan _ _ false pl H | B754_finite _ _ _ m e H => B754_finite _ _ false m e H end.
Definition f_close (p1 p2 threshold : fl) : bool := f_le (f_abs (b64_minus NE p2 p1)) (f_abs threshold).
(** 70-81: SafetyCheckUnitInterval; the messages printed are not modelled. *)
Definition f_unit (ratio : fl) : fl := if f_lt ratio f_0 then f_0 else if f_lt f_one ratio then f_one else ratio.
(** 83-89: Interpolate. *)
Definition f_interpolate (p1 p2 ratio : fl) : fl :=
  let r := f_unit ratio in b64_plus NE (b64_mult NE p1 (b64_minus NE f_one r)) (b64_mult NE p2 r).
(** 132-149: Interpolate for vectors of doubles. *)
Definition f_interpolate_vec (v1 v2 : list fl) (ratio : fl) : list fl :=
  let r := f_unit ratio in
  if (length v1 =? length v2)%nat then map (fun c => b64_plus NE (b64_mult NE (fst c) (b64_minus NE f_one r)) (b64_mult NE (snd c) r)) (combine v1 v2) else [].
