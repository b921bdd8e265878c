(** Specification of a voxel grid: a total map from integer indices, a default and an out-of-bounds value. *)
From Verif Require Import Base VoxelModel.

Section S.
Context {T : Type}.
(** Grid dimensions. *)
Variables nx ny nz : Z.

Record agrid := { a_cell : Z -> Z -> Z -> T; a_default : T; a_oob : T }.

Definition inside (x y z : Z) : bool :=
  ((0 <=? x) && (x <? nx) && (0 <=? y) && (y <? ny) && (0 <=? z) && (z <? nz))%Z.

Definition a_get (a : agrid) (x y z : Z) : T := if inside x y z then a_cell a x y z else a_oob a.

Definition with_cell (a : agrid) (x y z : Z) (v : T) : agrid :=
  {| a_cell := fun x' y' z' => if ((x =? x') && (y =? y') && (z =? z'))%Z then v else a_cell a x' y' z';
     a_default := a_default a; a_oob := a_oob a |}.
Definition with_all (a : agrid) (v : T) : agrid :=
  {| a_cell := fun _ _ _ => v; a_default := a_default a; a_oob := a_oob a |}.
Definition with_default (a : agrid) (v : T) : agrid :=
  {| a_cell := a_cell a; a_default := v; a_oob := a_oob a |}.
Definition with_oob (a : agrid) (v : T) : agrid :=
  {| a_cell := a_cell a; a_default := a_default a; a_oob := v |}.
(** Row-major numbering of the cells. *)
Definition with_raw (a : agrid) (l : list T) : agrid :=
  {| a_cell := fun x y z => nth (Z.to_nat ((x * ny + y) * nz + z)) l (a_default a);
     a_default := a_default a; a_oob := a_oob a |}.
Definition raw (a : agrid) : list T :=
  map (fun k => let k := Z.of_nat k in a_cell a (k / nz / ny)%Z ((k / nz) mod ny)%Z (k mod nz)%Z)
    (seq 0 (Z.to_nat (nx * ny * nz))).

(** One client operation.  Writing through the reference obtained outside the grid changes the
    out-of-bounds value. *)
Definition a_step (a : agrid) (o : op T) : agrid * res T :=
  match o with
  | OGet x y z => (a, RCell (a_get a x y z) (inside x y z))
  | OSet x y z v => if inside x y z then (with_cell a x y z v, RBool true) else (a, RBool false)
  | OWrite x y z v => if inside x y z then (with_cell a x y z v, RBool true) else (with_oob a v, RBool false)
  | OResetDefault => (with_all a (a_default a), RUnit)
  | OResetNewValue v => (with_all a v, RUnit)
  | OResetNewDefault v => (with_all (with_default a v) v, RUnit)
  | OSetDefault v => (with_default a v, RUnit)
  | OSetOOB v => (with_oob a v, RUnit)
  | OGetDefault => (a, RVal (a_default a))
  | OGetOOB => (a, RVal (a_oob a))
  | OSetRaw l => if (Z.of_nat (length l) =? nx * ny * nz)%Z then (with_raw a l, RBool true) else (a, RBool false)
  | OGetRaw => (a, RRaw (raw a))
  end.

Fixpoint a_run (a : agrid) (os : list (op T)) : list (res T) :=
  match os with
  | [] => []
  | o :: os' => let r := a_step a o in snd r :: a_run (fst r) os'
  end.

(** A fresh grid. *)
Definition a_fresh (d o : T) : agrid := {| a_cell := fun _ _ _ => d; a_default := d; a_oob := o |}.
End S.
Arguments agrid : clear implicits.
