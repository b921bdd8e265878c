(** Model of include/arc_utilities/voxel_grid.hpp (storage part; the geometry is in VoxelGeom.v and the byte
    format in VoxelSer.v).

    The backing store is a list.  Indices are mathematical integers; every int64_t product and sum the code
    forms goes through [ck], which is [UB] on signed overflow.  References returned by GetImmutable/GetMutable
    are modelled by what they are used for: reading the value, or writing through the reference at once. *)
From Verif Require Import Base.

Definition int64_min : Z := (- 2 ^ 63)%Z.
Definition int64_max : Z := (2 ^ 63 - 1)%Z.

(** Result of an int64_t operation: undefined behaviour on overflow. *)
Definition ck (z : Z) : outcome Z :=
  if ((int64_min <=? z) && (z <=? int64_max))%Z then Ok z else UB.

(** The geometric fields (voxel_grid.hpp:34-48) as bit patterns of doubles: two 4x4 transforms, cell sizes,
    inverse cell sizes and grid sizes.  The storage functions never look at them. *)
Record geometry := {
  geo_origin : list N;
  geo_inverse : list N;
  geo_cell : N * N * N;
  geo_inv_cell : N * N * N;
  geo_size : N * N * N
}.

(** voxel_grid.hpp:30-53, the data members of VoxelGrid<T>. *)
Record vgrid (T : Type) := {
  vg_geo : geometry;
  vg_init : bool;
  vg_default : T;
  vg_oob : T;
  vg_data : list T;
  vg_s1 : Z;
  vg_s2 : Z;
  vg_nx : Z;
  vg_ny : Z;
  vg_nz : Z
}.
Arguments vg_geo {T}. Arguments vg_init {T}. Arguments vg_default {T}. Arguments vg_oob {T}. Arguments vg_data {T}.
Arguments vg_s1 {T}. Arguments vg_s2 {T}. Arguments vg_nx {T}. Arguments vg_ny {T}. Arguments vg_nz {T}.

Section V.
Context {T : Type}.

(** std::vector storage limit: [resize] beyond it throws. *)
Variable maxn : Z.

Definition set_data (g : vgrid T) (l : list T) : vgrid T :=
  {| vg_geo := vg_geo g; vg_init := vg_init g; vg_default := vg_default g; vg_oob := vg_oob g; vg_data := l;
     vg_s1 := vg_s1 g; vg_s2 := vg_s2 g; vg_nx := vg_nx g; vg_ny := vg_ny g; vg_nz := vg_nz g |}.

(** voxel_grid.hpp:736 SetDefaultValue. *)
Definition set_default (g : vgrid T) (v : T) : vgrid T :=
  {| vg_geo := vg_geo g; vg_init := vg_init g; vg_default := v; vg_oob := vg_oob g; vg_data := vg_data g;
     vg_s1 := vg_s1 g; vg_s2 := vg_s2 g; vg_nx := vg_nx g; vg_ny := vg_ny g; vg_nz := vg_nz g |}.

(** voxel_grid.hpp:738 SetOOBValue. *)
Definition set_oob (g : vgrid T) (v : T) : vgrid T :=
  {| vg_geo := vg_geo g; vg_init := vg_init g; vg_default := vg_default g; vg_oob := v; vg_data := vg_data g;
     vg_s1 := vg_s1 g; vg_s2 := vg_s2 g; vg_nx := vg_nx g; vg_ny := vg_ny g; vg_nz := vg_nz g |}.

(** voxel_grid.hpp:55-61 GetDataIndex. *)
Definition data_index (g : vgrid T) (x y z : Z) : outcome Z :=
  let! a := ck (x * vg_s1 g) in
  let! b := ck (y * vg_s2 g) in
  let! c := ck (a + b) in
  ck (c + z).

(** voxel_grid.hpp:63-77 AccessIndex: the position in the backing store, or std::out_of_range. *)
Definition access (g : vgrid T) (i : Z) : outcome nat :=
  if ((0 <=? i) && (i <? Z.of_nat (length (vg_data g))))%Z then Ok (Z.to_nat i) else Throw OutOfRange.

(** The product num_x_cells_ * num_y_cells_ * num_z_cells_ (81, 832). *)
Definition cell_count (g : vgrid T) : outcome Z :=
  let! a := ck (vg_nx g * vg_ny g) in ck (a * vg_nz g).

(** voxel_grid.hpp:79-82 SetContents, with a value that does not live in the backing store. *)
Definition set_contents (g : vgrid T) (v : T) : outcome (vgrid T) :=
  let! n := cell_count g in
  if ((0 <=? n) && (n <=? maxn))%Z then Ok (set_data g (repeat v (Z.to_nat n))) else Throw LengthError.

(** voxel_grid.hpp:182-203 CoreInitialize with SafetyCheckSizes 134-180 and the two Initialize functions
    352-365, 377-390.  [cells_ok] is the outcome of the floating point checks on the three cell sizes
    (136-163); [geo] the geometry computed from the arguments. *)
Definition initialize (cells_ok : bool) (geo : geometry) (nx ny nz : Z) (d o : T) : outcome (vgrid T) :=
  if negb cells_ok then Throw InvalidArgument
  else if ((nx <=? 0) || (ny <=? 0) || (nz <=? 0))%Z then Throw InvalidArgument
  else
    let! s1 := ck (ny * nz) in
    set_contents {| vg_geo := geo; vg_init := true; vg_default := d; vg_oob := o; vg_data := [];
                    vg_s1 := s1; vg_s2 := nz; vg_nx := nx; vg_ny := ny; vg_nz := nz |} d.

(** voxel_grid.hpp:534-550 IndexInBounds. *)
Definition index_in_bounds (g : vgrid T) (x y z : Z) : bool :=
  ((0 <=? x) && (0 <=? y) && (0 <=? z) && (x <? vg_nx g) && (y <? vg_ny g) && (z <? vg_nz g))%Z.

(** Reading data_[i] (65, 73); [access] has checked the index. *)
Definition read_cell (g : vgrid T) (i : nat) : outcome T :=
  match nth_error (vg_data g) i with Some v => Ok v | None => UB end.

(** voxel_grid.hpp:592-607 GetImmutable by index; 637-651 GetMutable by index, read. *)
Definition get (g : vgrid T) (x y z : Z) : outcome (T * bool) :=
  if index_in_bounds g x y z then
    let! i := data_index g x y z in
    let! p := access g i in
    let! v := read_cell g p in
    Ok (v, true)
  else Ok (vg_oob g, false).

(** voxel_grid.hpp:675-690, 717-732 SetValue by index. *)
Definition set_value (g : vgrid T) (x y z : Z) (v : T) : outcome (vgrid T * bool) :=
  if index_in_bounds g x y z then
    let! i := data_index g x y z in
    let! p := access g i in
    Ok (set_data g (upd (vg_data g) p v), true)
  else Ok (g, false).

(** voxel_grid.hpp:637-651 GetMutable by index followed by an assignment through the returned reference;
    outside the grid the reference is to oob_value_. *)
Definition write_mutable (g : vgrid T) (x y z : Z) (v : T) : outcome (vgrid T * bool) :=
  if index_in_bounds g x y z then
    let! i := data_index g x y z in
    let! p := access g i in
    Ok (set_data g (upd (vg_data g) p v), true)
  else Ok (set_oob g v, false).

(** voxel_grid.hpp:831-840 SetRawData. *)
Definition set_raw (g : vgrid T) (l : list T) : outcome (vgrid T * bool) :=
  let! n := cell_count g in
  if (Z.of_nat (length l) =? n)%Z then Ok (set_data g l, true) else Ok (g, false).

(** voxel_grid.hpp:525-532 ResetWithDefault, ResetWithNewValue, ResetWithNewDefault. *)
Definition reset_default (g : vgrid T) : outcome (vgrid T) := set_contents g (vg_default g).
Definition reset_new_value (g : vgrid T) (v : T) : outcome (vgrid T) := set_contents g v.
Definition reset_new_default (g : vgrid T) (v : T) : outcome (vgrid T) := set_contents (set_default g v) v.

(** ResetWithNewValue(grid.GetImmutable(x, y, z).first): the argument is a reference into data_, and
    SetContents clears data_ (80) before it uses the reference (81), so inside the grid the reference dangles.
    Outside the grid the reference is to oob_value_. *)
Definition reset_from_cell (g : vgrid T) (x y z : Z) : outcome (vgrid T) :=
  if index_in_bounds g x y z then
    let! i := data_index g x y z in
    let! _ := access g i in
    UB
  else set_contents g (vg_oob g).

(** ** Client histories *)

Inductive op :=
| OGet (x y z : Z)
| OSet (x y z : Z) (v : T)
| OWrite (x y z : Z) (v : T)
| OResetDefault
| OResetNewValue (v : T)
| OResetNewDefault (v : T)
| OSetDefault (v : T)
| OSetOOB (v : T)
| OGetDefault
| OGetOOB
| OSetRaw (l : list T)
| OGetRaw.

(** What the client sees. *)
Inductive res :=
| RUnit
| RBool (b : bool)
| RCell (v : T) (inside : bool)
| RVal (v : T)
| RRaw (l : list T).

Definition step (g : vgrid T) (o : op) : outcome (vgrid T * res) :=
  match o with
  | OGet x y z => let! r := get g x y z in Ok (g, RCell (fst r) (snd r))
  | OSet x y z v => let! r := set_value g x y z v in Ok (fst r, RBool (snd r))
  | OWrite x y z v => let! r := write_mutable g x y z v in Ok (fst r, RBool (snd r))
  | OResetDefault => let! g' := reset_default g in Ok (g', RUnit)
  | OResetNewValue v => let! g' := reset_new_value g v in Ok (g', RUnit)
  | OResetNewDefault v => let! g' := reset_new_default g v in Ok (g', RUnit)
  | OSetDefault v => Ok (set_default g v, RUnit)
  | OSetOOB v => Ok (set_oob g v, RUnit)
  | OGetDefault => Ok (g, RVal (vg_default g))
  | OGetOOB => Ok (g, RVal (vg_oob g))
  | OSetRaw l => let! r := set_raw g l in Ok (fst r, RBool (snd r))
  | OGetRaw => Ok (g, RRaw (vg_data g))
  end.

Fixpoint run (g : vgrid T) (os : list op) : outcome (vgrid T * list res) :=
  match os with
  | [] => Ok (g, [])
  | o :: os' =>
      let! r := step g o in
      let! q := run (fst r) os' in
      Ok (fst q, snd r :: snd q)
  end.
End V.
Arguments op : clear implicits.
Arguments res : clear implicits.
