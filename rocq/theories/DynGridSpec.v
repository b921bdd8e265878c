(** Specification of the dynamic grid: space is cut into cells of the given size, numbered by integers; a chunk
    is a block of nx x ny x nz cells. *)
From Verif Require Import Base VoxelModel VoxelGeom DynGridModel.
From Coq Require Import Reals.
From Flocq Require Import Core.Raux.

Section S.
Context {T : Type}.
Variables (origin : iso) (cell : vec) (nx ny nz : Z).

Definition tri := (Z * Z * Z)%type.
Definition tri_eqb (a b : tri) : bool :=
  let '(x, y, z) := a in let '(x', y', z') := b in ((x =? x') && (y =? y') && (z =? z'))%Z.

(** The cell containing a location. *)
Definition cell_of (loc : vec) : tri :=
  let p := apply (inverse origin) loc in
  (Zfloor (vx p / vx cell), Zfloor (vy p / vy cell), Zfloor (vz p / vz cell)).
(** The chunk containing a cell. *)
Definition chunk_of (k : tri) : tri := let '(x, y, z) := k in (x / nx, y / ny, z / nz)%Z.

(** Values of all cells; which chunks hold one value, which hold separate cells; the default. *)
Record dspec := { d_cell : tri -> T; d_status : tri -> found_status; d_default : T }.

Definition d_value (a : dspec) (k : tri) : T :=
  match d_status a (chunk_of k) with NOT_FOUND => d_default a | _ => d_cell a k end.

Definition with_status (a : dspec) (q : tri) (s : found_status) (f : tri -> T) : dspec :=
  {| d_cell := fun k => if tri_eqb q (chunk_of k) then f k else d_cell a k;
     d_status := fun q' => if tri_eqb q q' then s else d_status a q';
     d_default := d_default a |}.

(** One client operation at a location in cell [k] of chunk [q]. *)
Definition d_step (a : dspec) (o : dop T) : dspec * dres T :=
  match o with
  | DGet loc => let k := cell_of loc in (a, DVal (d_value a k) (d_status a (chunk_of k)))
  | DSetCell loc v =>
      let k := cell_of loc in
      (with_status a (chunk_of k) FOUND_IN_CELL (fun k' => if tri_eqb k k' then v else d_value a k'), DSet SET_CELL)
  | DSetChunk loc v =>
      (with_status a (chunk_of (cell_of loc)) FOUND_IN_CHUNK (fun _ => v), DSet SET_CHUNK)
  | DWrite loc v =>
      let k := cell_of loc in
      let q := chunk_of k in
      (match d_status a q with
       | NOT_FOUND => {| d_cell := d_cell a; d_status := d_status a; d_default := v |}
       | FOUND_IN_CHUNK => with_status a q FOUND_IN_CHUNK (fun _ => v)
       | FOUND_IN_CELL => with_status a q FOUND_IN_CELL (fun k' => if tri_eqb k k' then v else d_cell a k')
       end, DFound (d_status a q))
  | DSetDefault v => ({| d_cell := d_cell a; d_status := d_status a; d_default := v |}, DUnit)
  end.

Fixpoint d_run (a : dspec) (os : list (dop T)) : list (dres T) :=
  match os with
  | [] => []
  | o :: os' => let r := d_step a o in snd r :: d_run (fst r) os'
  end.

Definition d_fresh (d : T) : dspec := {| d_cell := fun _ => d; d_status := fun _ => NOT_FOUND; d_default := d |}.

(** Locations whose chunk numbers fit in an int64_t. *)
Definition loc_ok (loc : vec) : Prop :=
  let '(x, y, z) := chunk_of (cell_of loc) in
  (int64_min <= x <= int64_max /\ int64_min <= y <= int64_max /\ int64_min <= z <= int64_max)%Z.
Definition dop_ok (o : dop T) : Prop :=
  match o with DGet l | DWrite l _ | DSetCell l _ | DSetChunk l _ => loc_ok l | DSetDefault _ => True end.
End S.
Arguments dspec : clear implicits.
