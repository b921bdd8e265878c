(** dynamic_spatial_hashed_voxel_grid.hpp in IEEE double arithmetic (round to nearest even), with the identity as
    origin transform: cell numbers along one axis. *)
From Verif Require Import Base VoxelModel VoxelFloat.
From Flocq Require Import IEEE754.Bits IEEE754.Binary Core.
Local Open Scope Z_scope.

Definition f_lt (a b : fl) : bool := match b64_compare a b with Some Lt => true | _ => false end.

(** (int64_t)floor(x) (555-557): floor is exact on doubles; the conversion is undefined when it does not fit. *)
Definition f_floor (x : fl) : outcome Z :=
  if is_finite 53 1024 x then
    let t := Btrunc 53 1024 x in
    ck (if f_lt x (f_of_Z t) then t - 1 else t)
  else UB.

(** One axis of GetContainingChunkRegion (549-563): the base coordinate of the chunk. *)
Definition f_base (cell : fl) (n : Z) (x : fl) : outcome fl :=
  let size := b64_mult NE cell (f_of_Z n) in
  let! q := f_floor (b64_div NE x size) in
  Ok (b64_mult NE (f_of_Z q) size).

(** One axis of GetLocationDataIndex (134-155): the cell number in the chunk, or none. *)
Definition f_local_cell (cell : fl) (n : Z) (x : fl) : outcome (option Z) :=
  let size := b64_mult NE cell (f_of_Z n) in
  let! base := f_base cell n x in
  let l := b64_minus NE x base in
  if f_lt l (f_of_Z 0) || f_lt size l then Ok None
  else
    let! i := f_to_int64 (b64_div NE l cell) in
    if (i <? 0) || (n <=? i) then Ok None else Ok (Some i).

(** Does SetCellValue(x, y, z, v) on a fresh grid store anything (655-663)?  The chunk is built and kept only
    when all three cell numbers exist. *)
Definition f_stores (cell : fl) (n : Z) (x y z : fl) : outcome bool :=
  let! i := f_local_cell cell n x in
  let! j := f_local_cell cell n y in
  let! k := f_local_cell cell n z in
  Ok (match i, j, k with Some _, Some _, Some _ => true | _, _, _ => false end).

(** The double literals 0.1, 3.4 and 0.5. *)
Definition f_lit (m e : Z) : fl := binary_normalize 53 1024 eq_refl eq_refl NE m e false.
Definition f_0_1 := f_lit 7205759403792794 (-56).
Definition f_3_4 := f_lit 7656119366529843 (-51).
Definition f_0_5 := f_lit 1 (-1).
