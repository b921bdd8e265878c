(** Model of include/arc_utilities/dynamic_spatial_hashed_voxel_grid.hpp over real-number geometry (rounding is
    not modelled here; DynGridFloat.v shows what it does).  int64_t conversions and products go through
    [ck]/[to_int64]: undefined behaviour when they do not fit. *)
From Verif Require Import Base VoxelModel VoxelGeom Assoc.
From Coq Require Import Reals.
From Flocq Require Import Core.Raux.

(** dynamic_spatial_hashed_voxel_grid.hpp:29-36 CHUNK_REGION::operator== (EigenHelpers::Equal3d). *)
Definition region_eqb (a b : vec) : bool :=
  if Req_EM_T (vx a) (vx b) then if Req_EM_T (vy a) (vy b) then if Req_EM_T (vz a) (vz b) then true else false
  else false else false.

(** :40-57, the members of DynamicSpatialHashedVoxelGridChunk. *)
Record chunk (T : Type) := {
  ch_base : vec;
  ch_initial : T;
  ch_data : list T;
  ch_cell : vec;
  ch_size : vec;
  ch_nx : Z;
  ch_ny : Z;
  ch_nz : Z;
  ch_s1 : Z;
  ch_s2 : Z;
  ch_chunk_init : bool;
  ch_cell_init : bool
}.
Arguments ch_base {T}. Arguments ch_initial {T}. Arguments ch_data {T}. Arguments ch_cell {T}. Arguments ch_size {T}.
Arguments ch_nx {T}. Arguments ch_ny {T}. Arguments ch_nz {T}. Arguments ch_s1 {T}. Arguments ch_s2 {T}.
Arguments ch_chunk_init {T}. Arguments ch_cell_init {T}.

Inductive found_status := NOT_FOUND | FOUND_IN_CHUNK | FOUND_IN_CELL.
Inductive set_status := NOT_SET | SET_CHUNK | SET_CELL.

(** :366-382, the members of DynamicSpatialHashedVoxelGrid. *)
Record dgrid (T : Type) := {
  dg_origin : iso;
  dg_default : T;
  dg_chunks : list (vec * chunk T);
  dg_cell : vec;
  dg_size : vec;
  dg_nx : Z;
  dg_ny : Z;
  dg_nz : Z
}.
Arguments dg_origin {T}. Arguments dg_default {T}. Arguments dg_chunks {T}. Arguments dg_cell {T}. Arguments dg_size {T}.
Arguments dg_nx {T}. Arguments dg_ny {T}. Arguments dg_nz {T}.

Section D.
Context {T : Type}.
Variable maxn : Z.   (* storage limit of std::vector *)
Variable dbg : bool.

Definition vsub (a b : vec) : vec := {| vx := vx a - vx b; vy := vy a - vy b; vz := vz a - vz b |}%R.

Definition rltb (a b : R) : bool := if Rlt_dec a b then true else false.

(** :130-132 GetDataIndex. *)
Definition ch_index (c : chunk T) (x y z : Z) : outcome Z :=
  let! a := ck (x * ch_s1 c) in
  let! b := ck (y * ch_s2 c) in
  let! s := ck (a + b) in
  ck (s + z).

(** :134-155 GetLocationDataIndex. *)
Definition location_index (c : chunk T) (loc : vec) : outcome Z :=
  let l := vsub loc (ch_base c) in
  if rltb (vx l) 0 || rltb (vy l) 0 || rltb (vz l) 0 then Ok (-1)%Z
  else if rltb (vx (ch_size c)) (vx l) || rltb (vy (ch_size c)) (vy l) || rltb (vz (ch_size c)) (vz l) then Ok (-1)%Z
  else
    let! x := to_int64 (vx l / vx (ch_cell c)) in
    let! y := to_int64 (vy l / vy (ch_cell c)) in
    let! z := to_int64 (vz l / vz (ch_cell c)) in
    if ((x <? 0) || (y <? 0) || (z <? 0) || (ch_nx c <=? x) || (ch_ny c <=? y) || (ch_nz c <=? z))%Z then Ok (-1)%Z
    else ch_index c x y z.

(** data_[i]: undefined outside the vector. *)
Definition data_at (c : chunk T) (i : Z) : outcome T :=
  match nth_error (ch_data c) (Z.to_nat i) with Some v => Ok v | None => UB end.
Definition data_set (c : chunk T) (i : Z) (v : T) : outcome (chunk T) :=
  if (Z.to_nat i <? length (ch_data c))%nat then
    Ok {| ch_base := ch_base c; ch_initial := ch_initial c; ch_data := upd (ch_data c) (Z.to_nat i) v;
          ch_cell := ch_cell c; ch_size := ch_size c; ch_nx := ch_nx c; ch_ny := ch_ny c; ch_nz := ch_nz c;
          ch_s1 := ch_s1 c; ch_s2 := ch_s2 c; ch_chunk_init := ch_chunk_init c; ch_cell_init := ch_cell_init c |}
  else UB.

(** :160-183, the cell constructor (sizes were checked when the grid was built, 389-426). *)
Definition cell_chunk (g : dgrid T) (base : vec) (v : T) : outcome (chunk T) :=
  let! s1 := ck (dg_ny g * dg_nz g) in
  let! a := ck (dg_nx g * dg_ny g) in
  let! n := ck (a * dg_nz g) in
  if ((0 <=? n) && (n <=? maxn))%Z then
    Ok {| ch_base := base; ch_initial := v; ch_data := repeat v (Z.to_nat n); ch_cell := dg_cell g;
          ch_size := {| vx := vx (dg_cell g) * IZR (dg_nx g); vy := vy (dg_cell g) * IZR (dg_ny g);
                        vz := vz (dg_cell g) * IZR (dg_nz g) |}%R;
          ch_nx := dg_nx g; ch_ny := dg_ny g; ch_nz := dg_nz g; ch_s1 := s1; ch_s2 := dg_nz g;
          ch_chunk_init := false; ch_cell_init := true |}
  else Throw LengthError.

(** :185-205, the whole-chunk constructor. *)
Definition whole_chunk (g : dgrid T) (base : vec) (v : T) : chunk T :=
  {| ch_base := base; ch_initial := v; ch_data := [v]; ch_cell := {| vx := 0; vy := 0; vz := 0 |};
     ch_size := dg_size g; ch_nx := 1; ch_ny := 1; ch_nz := 1; ch_s1 := 1; ch_s2 := 1;
     ch_chunk_init := true; ch_cell_init := false |}.

(** :255-275 GetCellMutable / GetCellImmutable: position of the cell, or none. *)
Definition cell_position (c : chunk T) (loc : vec) : outcome (option Z) :=
  cassert dbg (ch_cell_init c)
 (let! i := location_index c loc in
  if (0 <=? i)%Z then cassert dbg (i <? Z.of_nat (length (ch_data c)))%Z (Ok (Some i)) else Ok None).

(** :289-311 SetCellValue of a chunk. *)
Definition chunk_set_cell (c : chunk T) (loc : vec) (v : T) : outcome (chunk T * bool) :=
  cassert dbg (ch_cell_init c)
 (let! i := location_index c loc in
  if (0 <=? i)%Z then
    cassert dbg (i <? Z.of_nat (length (ch_data c)))%Z (let! c' := data_set c i v in Ok (c', true))
  else Ok (c, false)).

(** :277-287 GetChunkMutable / GetChunkImmutable, 313-325 SetChunkValue. *)
Definition chunk_value (c : chunk T) : outcome T :=
  cassert dbg (ch_chunk_init c) (cassert dbg (length (ch_data c) =? 1)%nat (data_at c 0)).
Definition chunk_set_value (c : chunk T) (v : T) : outcome (chunk T) :=
  cassert dbg (ch_chunk_init c) (cassert dbg (length (ch_data c) =? 1)%nat (data_set c 0 v)).

(** :549-563 GetContainingChunkRegion. *)
Definition containing_region (g : dgrid T) (p : vec) : outcome vec :=
  let! x := ck (Zfloor (vx p / vx (dg_size g))) in
  let! y := ck (Zfloor (vy p / vy (dg_size g))) in
  let! z := ck (Zfloor (vz p / vz (dg_size g))) in
  Ok {| vx := IZR x * vx (dg_size g); vy := IZR y * vy (dg_size g); vz := IZR z * vz (dg_size g) |}%R.

Definition set_chunks (g : dgrid T) (m : list (vec * chunk T)) : dgrid T :=
  {| dg_origin := dg_origin g; dg_default := dg_default g; dg_chunks := m; dg_cell := dg_cell g; dg_size := dg_size g;
     dg_nx := dg_nx g; dg_ny := dg_ny g; dg_nz := dg_nz g |}.
(** :787 SetDefaultValue. *)
Definition set_dg_default (g : dgrid T) (v : T) : dgrid T :=
  {| dg_origin := dg_origin g; dg_default := v; dg_chunks := dg_chunks g; dg_cell := dg_cell g; dg_size := dg_size g;
     dg_nx := dg_nx g; dg_ny := dg_ny g; dg_nz := dg_nz g |}.

(** :428-445 CoreInitialize, 495-520 Initialize, with valid arguments. *)
Definition dg_make (origin : iso) (cell : vec) (nx ny nz : Z) (d : T) : dgrid T :=
  {| dg_origin := origin; dg_default := d; dg_chunks := []; dg_cell := cell;
     dg_size := {| vx := vx cell * IZR nx; vy := vy cell * IZR ny; vz := vz cell * IZR nz |}%R;
     dg_nx := nx; dg_ny := ny; dg_nz := nz |}.

(** [inverse_origin_transform_ * location] (567, 592, 617, 667, 719, 754). *)
Definition grid_point (g : dgrid T) (loc : vec) : vec := apply (inverse (dg_origin g)) loc.

(** :565-588 GetImmutable. *)
Definition dg_get (g : dgrid T) (loc : vec) : outcome (T * found_status) :=
  let p := grid_point g loc in
  let! region := containing_region g p in
  match a_find region_eqb region (dg_chunks g) with
  | Some c =>
      if ch_cell_init c then
        let! pos := cell_position c p in
        match pos with
        | Some i => let! v := data_at c i in Ok (v, FOUND_IN_CELL)
        | None => Ok (dg_default g, NOT_FOUND)
        end
      else if ch_chunk_init c then let! v := chunk_value c in Ok (v, FOUND_IN_CHUNK)
      else Ok (dg_default g, NOT_FOUND)
  | None => Ok (dg_default g, NOT_FOUND)
  end.

(** :590-613 GetMutable, followed by an assignment through the returned reference. *)
Definition dg_write (g : dgrid T) (loc : vec) (v : T) : outcome (dgrid T * found_status) :=
  let p := grid_point g loc in
  let! region := containing_region g p in
  match a_find region_eqb region (dg_chunks g) with
  | Some c =>
      if ch_cell_init c then
        let! pos := cell_position c p in
        match pos with
        | Some i =>
            let! c' := data_set c i v in
            Ok (set_chunks g (a_set region_eqb region c' (dg_chunks g)), FOUND_IN_CELL)
        | None => Ok (set_dg_default g v, NOT_FOUND)
        end
      else if ch_chunk_init c then
        let! c' := chunk_set_value c v in
        Ok (set_chunks g (a_set region_eqb region c' (dg_chunks g)), FOUND_IN_CHUNK)
      else Ok (set_dg_default g v, NOT_FOUND)
  | None => Ok (set_dg_default g v, NOT_FOUND)
  end.

(** "make a new chunk; if SetCellValue on it succeeds store it" (632-641, 643-652, 655-663). *)
Definition new_cells (g : dgrid T) (region p : vec) (fill v : T) : outcome (dgrid T * set_status) :=
  let! c := cell_chunk g region fill in
  let! r := chunk_set_cell c p v in
  if snd r then Ok (set_chunks g (a_set region_eqb region (fst r) (dg_chunks g)), SET_CELL) else Ok (g, NOT_SET).

(** :615-664 (and 666-715 for rvalues) SetCellValue. *)
Definition dg_set_cell (g : dgrid T) (loc : vec) (v : T) : outcome (dgrid T * set_status) :=
  let p := grid_point g loc in
  let! region := containing_region g p in
  match a_find region_eqb region (dg_chunks g) with
  | Some c =>
      if ch_cell_init c then
        let! r := chunk_set_cell c p v in
        if snd r then Ok (set_chunks g (a_set region_eqb region (fst r) (dg_chunks g)), SET_CELL) else Ok (g, NOT_SET)
      else if ch_chunk_init c then
        let! cur := chunk_value c in
        new_cells g region p cur v
      else new_cells g region p (dg_default g) v
  | None => new_cells g region p (dg_default g) v
  end.

(** :717-750 (and 752-785 for rvalues) SetChunkValue by location. *)
Definition dg_set_chunk (g : dgrid T) (loc : vec) (v : T) : outcome (dgrid T * set_status) :=
  let p := grid_point g loc in
  let! region := containing_region g p in
  let fresh := Ok (set_chunks g (a_set region_eqb region (whole_chunk g region v) (dg_chunks g)), SET_CHUNK) in
  match a_find region_eqb region (dg_chunks g) with
  | Some c =>
      if ch_cell_init c then fresh
      else if ch_chunk_init c then
        let! c' := chunk_set_value c v in
        Ok (set_chunks g (a_set region_eqb region c' (dg_chunks g)), SET_CHUNK)
      else fresh
  | None => fresh
  end.

(** :539-547 SetChunkValue(x, y, z, value): the body calls SetCellValue. *)
Definition dg_set_chunk_xyz (g : dgrid T) (x y z : R) (v : T) : outcome (dgrid T * set_status) :=
  dg_set_cell g {| vx := x; vy := y; vz := z |} v.

(** ** Client histories *)
Inductive dop :=
| DGet (loc : vec)
| DWrite (loc : vec) (v : T)
| DSetCell (loc : vec) (v : T)
| DSetChunk (loc : vec) (v : T)
| DSetDefault (v : T).

Inductive dres := DVal (v : T) (s : found_status) | DFound (s : found_status) | DSet (s : set_status) | DUnit.

Definition dstep (g : dgrid T) (o : dop) : outcome (dgrid T * dres) :=
  match o with
  | DGet l => let! r := dg_get g l in Ok (g, DVal (fst r) (snd r))
  | DWrite l v => let! r := dg_write g l v in Ok (fst r, DFound (snd r))
  | DSetCell l v => let! r := dg_set_cell g l v in Ok (fst r, DSet (snd r))
  | DSetChunk l v => let! r := dg_set_chunk g l v in Ok (fst r, DSet (snd r))
  | DSetDefault v => Ok (set_dg_default g v, DUnit)
  end.

Fixpoint drun (g : dgrid T) (os : list dop) : outcome (dgrid T * list dres) :=
  match os with
  | [] => Ok (g, [])
  | o :: os' =>
      let! r := dstep g o in
      let! q := drun (fst r) os' in
      Ok (fst q, snd r :: snd q)
  end.
End D.
Arguments dop : clear implicits.
Arguments dres : clear implicits.
