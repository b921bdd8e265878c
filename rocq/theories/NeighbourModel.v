(** Model of include/arc_utilities/get_neighbours.hpp.  Coordinates are real numbers (rounding of the sums is not modelled); the
    rounding and validity functions are arguments, as in the code. *)
From Coq Require Import Reals List Bool.
From Verif Require Import Base MathModel.
Import ListNotations.
Open Scope R_scope.

(** The offsets -1, 0, 1 of the loops. *)
Definition offsets : list R := [-1; 0; 1].
Section Two.
Variables (round : R * R -> R * R) (valid : R * R -> bool).
(** 11-44: TwoDimensional8Connected. *)
Definition neighbours2 (c : R * R) (min_x max_x min_y max_y step : R) : list (R * R) :=
  let '(cx, cy) := c in
  let lo := round (Rmax min_x (cx - step), Rmax min_y (cy - step)) in
  let hi := round (Rmin max_x (cx + step), Rmin max_y (cy + step)) in
  flat_map (fun ox => flat_map (fun oy =>
    let n := round (cx + step * ox, cy + step * oy) in
    if Rleb (fst lo) (fst n) && Rleb (fst n) (fst hi) && Rleb (snd lo) (snd n) && Rleb (snd n) (snd hi)
       && (negb (Reqb (fst n) cx) || negb (Reqb (snd n) cy)) && valid n
    then [n] else []) offsets) offsets.
End Two.
Section Three.
Variables (round : R * R * R -> R * R * R) (valid : R * R * R -> bool).
(** 47-87: ThreeDimensional8Connected. *)
Definition neighbours3 (c : R * R * R) (min_x max_x min_y max_y min_z max_z step : R) : list (R * R * R) :=
  let '(cx, cy, cz) := c in
  let '(lx, ly, lz) := round (Rmax min_x (cx - step), Rmax min_y (cy - step), Rmax min_z (cz - step)) in
  let '(hx, hy, hz) := round (Rmin max_x (cx + step), Rmin max_y (cy + step), Rmin max_z (cz + step)) in
  flat_map (fun ox => flat_map (fun oy => flat_map (fun oz =>
    let n := round (cx + step * ox, cy + step * oy, cz + step * oz) in
    let '(nx, ny, nz) := n in
    if Rleb lx nx && Rleb nx hx && Rleb ly ny && Rleb ny hy && Rleb lz nz && Rleb nz hz
       && (negb (Reqb nx cx) || negb (Reqb ny cy) || negb (Reqb nz cz)) && valid n
    then [n] else []) offsets) offsets) offsets.
End Three.
