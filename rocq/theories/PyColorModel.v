(** Model of src/arc_utilities/color.py over the real numbers: rounding, infinities and NaN are not modelled.  to_color_msg (233-243), which only calls
    matplotlib, is left out. *)
From Coq Require Import Reals List Bool.
From Verif Require Import PyBase MathModel GeoModel.
Import ListNotations.
Open Scope R_scope.

(** x / y of Python floats. *)
Definition pdiv (x y : R) : py R := if Reqb y 0 then Raise ZeroDivisionError else Ret (x / y).

(** 13, 20: rgb_xyz_cvt_np. *)
Definition cvt : M3 := mkM (4124 / 10000) (2126 / 10000) (193 / 10000) (3576 / 10000) (7152 / 10000) (1192 / 10000) (1805 / 10000) (722 / 10000) (9505 / 10000).
(** numpy.dot of a vector and a matrix. *)
Definition vm (v : V3) (m : M3) : V3 := mapp (mtrans m) v.
(** 11-15: convert_rgb_to_xyz. *)
Definition rgb_to_xyz (c : V3) : V3 := vm c cvt.
(** 18-23: convert_xyz_to_rgb; [inv] is numpy.linalg.inv. *)
Definition xyz_to_rgb (inv : M3 -> M3) (c : V3) : V3 := vm c (inv cvt).

(** 26-30: cielab_f. *)
Definition cielab_f (v : R) : R := if Rltb (216 / 24389) v then Rpower v (1 / 3) else 841 / 108 * v + 16 / 116.
(** 33-37: cielab_finv. *)
Definition cielab_finv (v : R) : R := if Rltb (6 / 29) v then v ^ 3 else 108 / 841 * (v - 16 / 116).
(** 40-44: get_ref_xyz. *)
Definition ref_xyz : V3 := mkV (95047 / 1000) 100 (108883 / 1000).
(** 47-52: convert_xyz_to_lab; a vector of l, a, b. *)
Definition xyz_to_lab (c : V3) : V3 :=
  let fx := cielab_f (vx c / vx ref_xyz) in let fy := cielab_f (vy c / vy ref_xyz) in let fz := cielab_f (vz c / vz ref_xyz) in
  mkV (116 * (fy - 16 / 116)) (500 * (fx - fy)) (200 * (fy - fz)).
(** 55-60: convert_lab_to_xyz. *)
Definition lab_to_xyz (c : V3) : V3 :=
  let i := (vx c + 16) * (1 / 116) in
  mkV (cielab_finv (i + vy c * (1 / 500))) (cielab_finv i) (cielab_finv (i - vz c * (1 / 200))).
(** 63-68: convert_lab_to_msh; a vector of m, s, h. *)
Definition lab_to_msh (c : V3) : py V3 :=
  let m := sqrt (vx c ^ 2 + vy c ^ 2 + vz c ^ 2) in
  let? q := pdiv (vx c) m in
  let? t := pdiv (vz c) (vy c) in
  Ret (mkV m (acos q) (atan t)).
(** 71-75: convert_msh_to_lab. *)
Definition msh_to_lab (c : V3) : V3 := mkV (vx c * cos (vy c)) (vx c * sin (vy c) * cos (vz c)) (vx c * sin (vy c) * sin (vz c)).
(** 78-82: rgb_to_msh. *)
Definition rgb_to_msh (c : V3) : py V3 := lab_to_msh (xyz_to_lab (rgb_to_xyz c)).
(** 85-89: msh_to_rgb. *)
Definition msh_to_rgb (inv : M3 -> M3) (c : V3) : V3 := xyz_to_rgb inv (lab_to_xyz (msh_to_lab c)).

(** 92-97: rad_diff. *)
Definition rad_diff (x y : R) : R := let d := Rabs (x - y) in if Rltb PI d then PI * 2 - d else d.
(** 100-110: adjust_hue. *)
Definition adjust_hue (msh : V3) (m_uns : R) : py R :=
  if Rleb m_uns (vx msh) then Ret (vz msh)
  else
    let? spin := pdiv (vy msh * sqrt (m_uns ^ 2 - vx msh ^ 2)) (vx msh * sin (vy msh)) in
    if Rltb (- (PI / 3)) (vz msh) then Ret (vz msh + spin) else Ret (vz msh - spin).

(** 137-141: the interpolation of the control points. *)
Definition mix (t : R) (a b : V3) : V3 := mkV ((1 - t) * vx a + t * vx b) ((1 - t) * vy a + t * vy b) ((1 - t) * vz a + t * vz b).
(** 132-136: the hue of the unsaturated one. *)
Definition fix_hues (a b : V3) : py (V3 * V3) :=
  if Rltb (vy a) (5 / 100) && Rltb (5 / 100) (vy b) then let? h := adjust_hue b (vx a) in Ret (mkV (vx a) (vy a) h, b)
  else if Rltb (vy b) (5 / 100) && Rltb (5 / 100) (vy a) then let? h := adjust_hue a (vx b) in Ret (a, mkV (vx b) (vy b) h)
  else Ret (a, b).
(** 119-131: white in the middle. *)
Definition put_white (a b : V3) (t : R) : V3 * V3 * R :=
  if Rltb (5 / 100) (vy a) && Rltb (5 / 100) (vy b) && Rltb (PI / 3) (rad_diff (vz a) (vz b)) then
    let mid := mkV (Rmax (Rmax (vx a) (vx b)) 88) 0 0 in
    if Rltb t (1 / 2) then (a, mid, t * 2) else (mid, b, 2 * t - 1)
  else (a, b, t).
(** 113-141: interpolate_coolwarm. *)
Definition interpolate_coolwarm (inv : M3 -> M3) (rgb1 rgb2 : V3) (t : R) : py V3 :=
  if Rleb 0 t && Rleb t 1 then
    let? a := rgb_to_msh rgb1 in
    let? b := rgb_to_msh rgb2 in
    let '(a, b, t) := put_white a b t in
    let? ab := fix_hues a b in
    Ret (msh_to_rgb inv (mix t (fst ab) (snd ab)))
  else Raise PyAssertionError.

(** 144-145: jet_interpolate. *)
Definition jet_interpolate (value y0 x0 y1 x1 : R) : R := (value - x0) * (y1 - y0) / (x1 - x0) + y0.
(** 148-158: jet_base. *)
Definition jet_base (v : R) : R :=
  if Rleb v (-75 / 100) then 0
  else if Rleb v (-25 / 100) then jet_interpolate v 0 (-75 / 100) 1 (-25 / 100)
  else if Rleb v (25 / 100) then 1
  else if Rleb v (75 / 100) then jet_interpolate v 1 (25 / 100) 0 (75 / 100)
  else 0.
(** 161-179: interpolate_jet. *)
Definition jet_color (v : R) : V3 := mkV (jet_base (v - 5 / 10)) (jet_base v) (jet_base (v + 5 / 10)).
Definition interpolate_jet (v : R) (use_negative_range : bool) : py V3 :=
  if use_negative_range then
    if Rleb (-1) v && Rleb v 1 then Ret (jet_color v) else Raise PyAssertionError
  else if Rleb 0 v && Rleb v 1 then
    let v := if Rltb (5 / 10) v then (v - 5 / 10) * 2 else if Rltb v (5 / 10) then - (5 / 10 - v) * 2 else 0 in
    Ret (jet_color v)
  else Raise PyAssertionError.

(** 182-207: interpolate_hot_to_cold. *)
Definition interpolate_hot_to_cold (value mn mx : R) : py V3 :=
  if Rltb mn mx then
    let value := if Rltb value mn then mn else if Rltb mx value then mx else value in
    let rng := mx - mn in
    if Rltb value (mn + 25 / 100 * rng) then Ret (mkV 0 (4 * (value - mn) / rng) 1)
    else if Rltb value (mn + 5 / 10 * rng) then Ret (mkV 0 1 (1 + 4 * (mn + 25 / 100 * rng - value) / rng))
    else if Rltb value (mn + 75 / 100 * rng) then Ret (mkV (4 * (value - mn - 5 / 10 * rng) / rng) 1 0)
    else Ret (mkV 1 (1 + 4 * (mn + 75 / 100 * rng - mn) / rng) 0)
  else Raise PyAssertionError.

(** 210-216: safe_color_val. *)
Definition safe_color_val (v : R) : R := if Rleb 1 v then 1 else if Rleb v 0 then 0 else v.
(** 219-225: make_color: r, g, b and a. *)
Definition make_color (r g b a : R) : V3 * R := (mkV (safe_color_val r) (safe_color_val g) (safe_color_val b), safe_color_val a).
(** 228-230: map_color. *)
Definition map_color (value : R) : py (V3 * R) := let? c := interpolate_hot_to_cold value 0 1 in Ret (make_color (vx c) (vy c) (vz c) 1).
