(** Model of the geometric part of include/arc_utilities/voxel_grid.hpp over the real numbers: doubles are
    reals here, so rounding is not modelled (VoxelFloat.v treats rounding in the grid frame).  The conversion
    to int64_t is kept as it is in C++: truncation toward zero, undefined when the result does not fit. *)
From Verif Require Import Base VoxelModel.
From Coq Require Import Reals Lra.
From Flocq Require Import Core.Raux.

Open Scope R_scope.

Record vec := { vx : R; vy : R; vz : R }.

(** Eigen::Isometry3d: rotation matrix (rows) and translation; the fourth row is (0,0,0,1). *)
Record iso := { r1 : vec; r2 : vec; r3 : vec; tr : vec }.

Definition dot (a b : vec) : R := vx a * vx b + vy a * vy b + vz a * vz b.

(** Isometry3d * point (voxel_grid.hpp:786, 791, 799, 808). *)
Definition apply (m : iso) (p : vec) : vec :=
  {| vx := dot (r1 m) p + vx (tr m); vy := dot (r2 m) p + vy (tr m); vz := dot (r3 m) p + vz (tr m) |}.

Definition col1 (m : iso) := {| vx := vx (r1 m); vy := vx (r2 m); vz := vx (r3 m) |}.
Definition col2 (m : iso) := {| vx := vy (r1 m); vy := vy (r2 m); vz := vy (r3 m) |}.
Definition col3 (m : iso) := {| vx := vz (r1 m); vy := vz (r2 m); vz := vz (r3 m) |}.

(** Isometry3d::inverse() (voxel_grid.hpp:358, 383, 756): Eigen transposes the rotation for isometries. *)
Definition inverse (m : iso) : iso :=
  {| r1 := col1 m; r2 := col2 m; r3 := col3 m;
     tr := {| vx := - dot (col1 m) (tr m); vy := - dot (col2 m) (tr m); vz := - dot (col3 m) (tr m) |} |}.

(** voxel_grid.hpp:34-53: the fields the geometry uses. *)
Record geom := {
  g_origin : iso;
  g_cell : vec;
  g_nx : Z;
  g_ny : Z;
  g_nz : Z
}.

(** Fields computed by CoreInitialize (188-193) and Initialize (358). *)
Definition g_inverse (g : geom) : iso := inverse (g_origin g).
Definition g_inv_cell (g : geom) : vec :=
  {| vx := 1 / vx (g_cell g); vy := 1 / vy (g_cell g); vz := 1 / vz (g_cell g) |}.

(** (int64_t)x for a double x. *)
Definition to_int64 (x : R) : outcome Z := ck (Ztrunc x).

(** voxel_grid.hpp:759-778 PointInFrameToGridIndex. *)
Definition point_to_index (g : geom) (p : vec) : outcome (Z * Z * Z) :=
  let! x := to_int64 (vx p * vx (g_inv_cell g)) in
  let! y := to_int64 (vy p * vy (g_inv_cell g)) in
  let! z := to_int64 (vz p * vz (g_inv_cell g)) in
  Ok (x, y, z).

(** voxel_grid.hpp:780-793 LocationToGridIndex. *)
Definition location_to_index (g : geom) (q : vec) : outcome (Z * Z * Z) :=
  point_to_index g (apply (g_inverse g) q).

(** voxel_grid.hpp:812-825 GridIndexToLocationGridFrame. *)
Definition index_to_point (g : geom) (x y z : Z) : vec :=
  {| vx := vx (g_cell g) * (IZR x + 0.5); vy := vy (g_cell g) * (IZR y + 0.5); vz := vz (g_cell g) * (IZR z + 0.5) |}.

(** voxel_grid.hpp:795-810 GridIndexToLocation. *)
Definition index_to_location (g : geom) (x y z : Z) : vec := apply (g_origin g) (index_to_point g x y z).

(** voxel_grid.hpp:534-550 IndexInBounds. *)
Definition geom_in_bounds (g : geom) (i : Z * Z * Z) : bool :=
  let '(x, y, z) := i in
  ((0 <=? x) && (0 <=? y) && (0 <=? z) && (x <? g_nx g) && (y <? g_ny g) && (z <? g_nz g))%Z.

(** voxel_grid.hpp:552-565 LocationInBounds. *)
Definition location_in_bounds (g : geom) (q : vec) : outcome bool :=
  let! i := location_to_index g q in Ok (geom_in_bounds g i).

(** voxel_grid.hpp:345-347, 368-370: cell count along one axis from a requested size. *)
Definition count_for (size cell : R) : outcome Z := ck (Zceil (Rabs size / Rabs cell)).

(** voxel_grid.hpp:194-196: the resulting grid size along one axis. *)
Definition size_of (n : Z) (cell : R) : R := IZR n * cell.
