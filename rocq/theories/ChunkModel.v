(** Model of the chunks of the dynamic grid used by themselves: include/arc_utilities/dynamic_spatial_hashed_voxel_grid.hpp 39-361
    (DynamicSpatialHashedVoxelGridChunk), in IEEE double arithmetic.  A reference that is returned is modelled by what reading it gives and by
    what an assignment through it changes.  Alignment is not looked at. *)
From Verif Require Import Base VoxelModel VoxelFloat DynGridFloat VoxelMakeModel.
From Flocq Require Import IEEE754.Bits IEEE754.Binary Core.
Local Open Scope Z_scope.

(** 42-58: the members. *)
Record fchunk (T : Type) := Fc {
  k_base : t3 fl; k_initial : T; k_data : list T; k_cell : t3 fl; k_size : t3 fl; k_n : t3 Z; k_s1 : Z; k_s2 : Z;
  k_chunk : bool; k_cells : bool }.
Arguments Fc {T}. Arguments k_base {T}. Arguments k_initial {T}. Arguments k_data {T}. Arguments k_cell {T}. Arguments k_size {T}.
Arguments k_n {T}. Arguments k_s1 {T}. Arguments k_s2 {T}. Arguments k_chunk {T}. Arguments k_cells {T}.

Section Chunk.
Context {T : Type}.
Variable maxn : Z.     (* storage limit of std::vector: resize beyond it throws *)
Variable dbg : bool.   (* assertions are compiled in *)

(** 160-180: a chunk of cells; the checks are those of 90-128 (as in VoxelMakeModel.check_counts).  The products are of int64_t. *)
Definition make_cells (base : t3 fl) (c : t3 fl) (n : t3 Z) (v : T) : outcome (fchunk T) :=
  if negb (check_counts c n) then Throw InvalidArgument
  else
    let cell := map3 b64_abs c in
    let! s1 := ck (ay n * az n) in
    let! m := ck (ax n * ay n) in
    let! total := ck (m * az n) in
    if total <=? maxn then
      Ok (Fc base v (repeat v (Z.to_nat total)) cell (zip3 (fun x k => b64_mult NE x (f_of_Z k)) cell n) n s1 (az n) false true)
    else Throw LengthError.

(** 182-201: a chunk of one value; the checks are those of 60-88. *)
Definition make_whole (base : t3 fl) (s : t3 fl) (v : T) : outcome (fchunk T) :=
  if negb (all3 (map3 checked s)) then Throw InvalidArgument
  else Ok (Fc base v [v] (T3 f_zero f_zero f_zero) (map3 b64_abs s) (T3 1 1 1) 1 1 true false).

(** 203-217: the default constructor; [v] is the T made by default initialization. *)
Definition make_blank (v : T) : fchunk T :=
  let z := T3 f_zero f_zero f_zero in Fc z v [] z z (T3 0 0 0) 0 0 false false.

(** 223-230: IndexInBounds. *)
Definition k_in_bounds (c : fchunk T) (i : t3 Z) : bool :=
  (0 <=? ax i) && (0 <=? ay i) && (0 <=? az i) && (ax i <? ax (k_n c)) && (ay i <? ay (k_n c)) && (az i <? az (k_n c)).
(** 130-132: GetDataIndex. *)
Definition k_index (c : fchunk T) (i : t3 Z) : outcome Z :=
  let! a := ck (ax i * k_s1 c) in
  let! e := ck (ay i * k_s2 c) in
  let! s := ck (a + e) in
  ck (s + az i).
(** 134-155: GetLocationDataIndex; None is -1.  All three conversions to int64_t come before the comparisons. *)
Definition k_location (c : fchunk T) (p : t3 fl) : outcome (option Z) :=
  let l := zip3 (b64_minus NE) p (k_base c) in
  if f_lt (ax l) f_zero || f_lt (ay l) f_zero || f_lt (az l) f_zero then Ok None
  else if f_lt (ax (k_size c)) (ax l) || f_lt (ay (k_size c)) (ay l) || f_lt (az (k_size c)) (az l) then Ok None
  else
    let! x := f_to_int64 (b64_div NE (ax l) (ax (k_cell c))) in
    let! y := f_to_int64 (b64_div NE (ay l) (ay (k_cell c))) in
    let! z := f_to_int64 (b64_div NE (az l) (az (k_cell c))) in
    if k_in_bounds c (T3 x y z) then let! d := k_index c (T3 x y z) in Ok (if d <? 0 then None else Some d) else Ok None.

(** data_[d], undefined beyond the end. *)
Definition k_at (c : fchunk T) (d : Z) : outcome T :=
  if d <? 0 then UB else match nth_error (k_data c) (Z.to_nat d) with Some v => Ok v | None => UB end.
Definition k_put (c : fchunk T) (d : Z) (v : T) : outcome (fchunk T) :=
  if (d <? 0) || (Z.of_nat (length (k_data c)) <=? d) then UB
  else Ok (Fc (k_base c) (k_initial c) (firstn (Z.to_nat d) (k_data c) ++ v :: skipn (S (Z.to_nat d)) (k_data c)) (k_cell c) (k_size c) (k_n c)
             (k_s1 c) (k_s2 c) (k_chunk c) (k_cells c)).
Definition k_set_initial (c : fchunk T) (v : T) : fchunk T :=
  Fc (k_base c) v (k_data c) (k_cell c) (k_size c) (k_n c) (k_s1 c) (k_s2 c) (k_chunk c) (k_cells c).
Definition in_data (c : fchunk T) (d : Z) : bool := (0 <=? d) && (d <? Z.of_nat (length (k_data c))).

(** What the four getters (232-275) have in common: the place of the element, or None for initial_value_. *)
Definition by_index (c : fchunk T) (i : t3 Z) : outcome (option Z) :=
  cassert dbg (k_chunk c || k_cells c)
  (if k_in_bounds c i then let! d := k_index c i in cassert dbg (in_data c d) (Ok (Some d)) else Ok None).
Definition by_location (c : fchunk T) (p : t3 fl) : outcome (option Z) :=
  cassert dbg (k_cells c)
  (let! d := k_location c p in
   match d with Some d => cassert dbg (d <? Z.of_nat (length (k_data c))) (Ok (Some d)) | None => Ok None end).
Definition read_at (c : fchunk T) (o : option Z) : outcome (T * bool) :=
  match o with Some d => let! v := k_at c d in Ok (v, true) | None => Ok (k_initial c, false) end.
Definition write_at (c : fchunk T) (o : option Z) (v : T) : outcome (fchunk T * bool) :=
  match o with Some d => let! c := k_put c d v in Ok (c, true) | None => Ok (k_set_initial c v, false) end.

(** 232-242: GetImmutableByIndex. *)
Definition get_immutable_by_index (c : fchunk T) (i : t3 Z) : outcome (T * bool) := let! o := by_index c i in read_at c o.
(** 244-253: GetMutableByIndex, followed by an assignment to .first. *)
Definition assign_by_index (c : fchunk T) (i : t3 Z) (v : T) : outcome (fchunk T * bool) := let! o := by_index c i in write_at c o v.
(** 255-264: GetCellMutable, followed by an assignment to .first. *)
Definition assign_cell (c : fchunk T) (p : t3 fl) (v : T) : outcome (fchunk T * bool) := let! o := by_location c p in write_at c o v.
(** 266-275: GetCellImmutable. *)
Definition get_cell_immutable (c : fchunk T) (p : t3 fl) : outcome (T * bool) := let! o := by_location c p in read_at c o.
(** 289-311: SetCellValue, both overloads. *)
Definition set_cell_value (c : fchunk T) (p : t3 fl) (v : T) : outcome (fchunk T * bool) :=
  let! o := by_location c p in
  match o with Some d => let! c := k_put c d v in Ok (c, true) | None => Ok (c, false) end.
(** 277-287: GetChunkMutable and GetChunkImmutable, read. *)
Definition get_chunk (c : fchunk T) : outcome T :=
  cassert dbg (k_chunk c) (cassert dbg (length (k_data c) =? 1)%nat (k_at c 0)).
(** 313-325: SetChunkValue, both overloads; also GetChunkMutable followed by an assignment. *)
Definition set_chunk (c : fchunk T) (v : T) : outcome (fchunk T) :=
  cassert dbg (k_chunk c) (cassert dbg (length (k_data c) =? 1)%nat (k_put c 0 v)).

(** 327-345: GetIndexLocationInGrid; None is the empty vector. *)
Definition index_location (c : fchunk T) (i : t3 Z) : outcome (option (t3 fl)) :=
  cassert dbg (k_chunk c || k_cells c)
  (if k_in_bounds c i then
     let q := if k_chunk c then map3 (fun s => b64_mult NE s f_half) (k_size c)
              else zip3 (fun s k => b64_mult NE s (b64_plus NE (f_of_Z k) f_half)) (k_cell c) i in
     Ok (Some (zip3 (b64_plus NE) (k_base c) q))
   else Ok None).
(** 347-354: GetElementSize. *)
Definition element_size (c : fchunk T) : outcome (t3 fl) :=
  cassert dbg (k_chunk c || k_cells c) (Ok (if k_chunk c then k_size c else k_cell c)).
End Chunk.
