(** Model of the random rotations (1207-1262) and of the colour interpolations (352-378, 450-469) of
    include/arc_utilities/arc_helpers.hpp, over the real numbers: rounding and NaN are not modelled. *)
From Coq Require Import Reals Bool.
From Verif Require Import Base MathModel.
Open Scope R_scope.

(** 1215-1230: GenerateUniformRandomQuaternion, from the three draws in the order they are made; the result is (w, x, y, z). *)
Definition random_quaternion (x0 u1 u2 : R) : R * R * R * R :=
  let r1 := sqrt (1 - x0) in
  let r2 := sqrt x0 in
  let t1 := 2 * PI * u1 in
  let t2 := 2 * PI * u2 in
  (cos t2 * r2, sin t1 * r1, cos t1 * r1, sin t2 * r2).
(** 1233-1240: GenerateUniformRandomEulerAngles, from the four draws; the result is (roll, pitch, yaw). *)
Definition random_euler (u1 u2 u3 u4 : R) : R * R * R :=
  let roll := 2 * PI * u1 - PI in
  let pitch_init := acos (1 - 2 * u2) + PI / 2 in
  let pitch := if Rltb u3 (/ 2) then if Rltb pitch_init PI then pitch_init + PI else pitch_init - PI else pitch_init in
  let yaw := 2 * PI * u4 - PI in
  (roll, pitch, yaw).

Record rgba := RGBA { c_r : R; c_g : R; c_b : R; c_a : R }.
(** TrimColorValue: std::min(1, std::max(0, v)). *)
Definition trim (v : R) : R := Rmin 1 (Rmax 0 v).
(** 333-340: MakeFromFloatColors. *)
Definition from_floats (r g b a : R) : rgba := RGBA (trim r) (trim g) (trim b) (trim a).
(** 352-378: InterpolateHotToCold; ClampValue is std::min(max, std::max(min, value)) under its own assertion. *)
Definition hot_to_cold (dbg : bool) (value mn mx : R) : outcome rgba :=
  cassert dbg (Rltb mn mx) (
    let v := Rmin mx (Rmax mn value) in
    let range := mx - mn in
    let '(r, g, b) :=
      if Rltb v (mn + / 4 * range) then (0, 4 * (v - mn) / range, 1)
      else if Rltb v (mn + / 2 * range) then (0, 1, 1 + 4 * (mn + / 4 * range - v) / range)
      else if Rltb v (mn + 3 / 4 * range) then (4 * (v - mn - / 2 * range) / range, 1, 0)
      else (1, 1 + 4 * (mn + 3 / 4 * range - v) / range, 0) in
    Ok (from_floats r g b 1)).
(** 450-469: InterpolateColor. *)
Definition interpolate_color (c1 c2 : rgba) (ratio : R) : rgba :=
  let t := if Rltb ratio 0 then 0 else if Rltb 1 ratio then 1 else ratio in
  let mix a b := trim (a * (1 - t) + b * t) in
  RGBA (mix (c_r c1) (c_r c2)) (mix (c_g c1) (c_g c2)) (mix (c_b c1) (c_b c2)) (mix (c_a c1) (c_a c2)).
