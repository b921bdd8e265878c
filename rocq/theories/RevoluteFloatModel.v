(** Model of the functions on revolute angles of include/arc_utilities/math_helpers.hpp in doubles, with their rounding. *)
From Verif Require Import Base VoxelFloat DynGridFloat InterpFloatModel.
From Flocq Require Import IEEE754.Bits IEEE754.Binary.

(** M_PI, and 2.0 * M_PI, of which the latter is exact. *)
Definition f_pi : fl := b64_of_bits 4614256656552045848.
Definition f_2pi : fl := b64_mult NE (f_of_Z 2) f_pi.
Definition f_minus_pi : fl := b64_opp f_pi.
Definition f_nan : fl := b64_of_bits 9221120237041090560.

(** fmod of C: the exact remainder of the division truncated toward zero, with the sign of the first argument; a NaN if
    an argument is one, the first is infinite or the second is 0.  Both arguments are whole multiples of a power of two. *)
Definition f_mod (x y : fl) : fl :=
  match x, y with
  | B754_nan _ _ _ _ _, _ => x
  | _, B754_nan _ _ _ _ _ => y
  | B754_infinity _ _ _, _ => f_nan
  | _, B754_zero _ _ _ => f_nan
  | B754_zero _ _ _, _ => x
  | B754_finite _ _ _ _ _ _, B754_infinity _ _ _ => x
  | B754_finite _ _ sx mx ex _, B754_finite _ _ _ my ey _ =>
      let e := Z.min ex ey in
      let r := Z.modulo (Zpos mx * 2 ^ (ex - e)) (Zpos my * 2 ^ (ey - e)) in
      binary_normalize 53 1024 eq_refl eq_refl NE (if sx then - r else r)%Z e sx
  end.

(** math_helpers.hpp 52-65: EnforceContinuousRevoluteBounds. *)
Definition f_enforce (value : fl) : fl :=
  if f_le value f_minus_pi || f_lt f_pi value then
    let remainder := f_mod value f_2pi in
    if f_le remainder f_minus_pi then b64_plus NE remainder f_2pi
    else if f_lt f_pi remainder then b64_minus NE remainder f_2pi
    else remainder
  else value.
(** 91-119: InterpolateContinuousRevolute; -2.0 * M_PI is the opposite of 2.0 * M_PI. *)
Definition f_interpolate_revolute (p1 p2 ratio : fl) : fl :=
  let real_ratio := f_unit ratio in
  let real_p1 := f_enforce p1 in
  let real_p2 := f_enforce p2 in
  let diff := b64_minus NE real_p2 real_p1 in
  if f_le (f_abs diff) f_pi then b64_plus NE real_p1 (b64_mult NE diff real_ratio)
  else
    let diff := if f_lt f_0 diff then b64_minus NE f_2pi diff else b64_minus NE (b64_opp f_2pi) diff in
    let interpolated := b64_minus NE real_p1 (b64_mult NE diff real_ratio) in
    if f_lt f_pi interpolated then b64_minus NE interpolated f_2pi
    else if f_lt interpolated f_minus_pi then b64_plus NE interpolated f_2pi
    else interpolated.
(** 175-191: ContinuousRevoluteSignedDistance. *)
Definition f_signed_distance (p1 p2 : fl) : fl :=
  let raw := b64_minus NE (f_enforce p2) (f_enforce p1) in
  if f_le raw f_minus_pi then b64_minus NE (b64_opp f_2pi) raw
  else if f_lt f_pi raw then b64_minus NE f_2pi raw
  else raw.
(** 193-195: ContinuousRevoluteDistance. *)
Definition f_revolute_distance (p1 p2 : fl) : fl := f_abs (f_signed_distance p1 p2).
(** 197-199: AddContinuousRevoluteValues. *)
Definition f_add_revolute (start change : fl) : fl := f_enforce (b64_plus NE start change).
(** 201-208: GetContinuousRevoluteRange. *)
Definition f_revolute_range (start end_ : fl) : fl :=
  let raw := f_signed_distance start end_ in if f_le f_0 raw then raw else b64_plus NE f_2pi raw.
(** 210-228: CheckInContinuousRevoluteRange. *)
Definition f_in_revolute_range (start range val : fl) : bool :=
  let real_val := f_enforce val in
  let real_start := f_enforce start in
  let delta := f_signed_distance real_start real_val in
  if f_le f_0 delta then f_le delta range else f_le (b64_plus NE f_2pi delta) range.
(** 230-233: CheckInContinuousRevoluteBounds. *)
Definition f_in_revolute_bounds (start end_ val : fl) : bool := f_in_revolute_range start (f_revolute_range start end_) val.
