(** Model of how voxel grids are made: include/arc_utilities/voxel_grid.hpp 79-203 and 221-388 and
    include/arc_utilities/dynamic_spatial_hashed_voxel_grid.hpp 387-515 and 549-563, in IEEE double arithmetic.  Transforms are abstract, and alignment
    (CheckAlignment, see ConsoleModel.v) is not looked at.  All rejections are std::invalid_argument; the texts are left out. *)
From Verif Require Import Base VoxelModel VoxelFloat DynGridFloat.
From Flocq Require Import IEEE754.Bits IEEE754.Binary Core.
Local Open Scope Z_scope.

Definition f_zero : fl := f_of_Z 0.
(** The three checks of a size, voxel_grid.hpp 86-94: <= 0, isnan, isinf. *)
Definition f_le0 (x : fl) : bool := match b64_compare x f_zero with Some Lt | Some Eq => true | _ => false end.
Definition f_inf (x : fl) : bool := match x with B754_infinity _ _ _ => true | _ => false end.
Definition checked (x : fl) : bool := negb (f_le0 x) && negb (is_nan _ _ x) && negb (f_inf x).
(** ceil of a finite double, which is exact. *)
Definition f_ceil (x : fl) : Z :=
  match x with
  | B754_finite _ _ s m e _ => let z := cond_Zopp s (Zpos m) in if 0 <=? e then z * 2 ^ e else - ((- z) / 2 ^ (- e))
  | _ => 0
  end.
(** 345-347 and 369-371: (int64_t)(ceil(std::abs(size) / std::abs(cell))), undefined if it does not fit. *)
Definition count (size cell : fl) : outcome Z :=
  let q := b64_div NE (b64_abs size) (b64_abs cell) in if is_finite _ _ q then ck (f_ceil q) else UB.

Record t3 (A : Type) := T3 { ax : A; ay : A; az : A }.
Arguments T3 {A}. Arguments ax {A}. Arguments ay {A}. Arguments az {A}.
Definition map3 {A B} (f : A -> B) (t : t3 A) : t3 B := T3 (f (ax t)) (f (ay t)) (f (az t)).
Definition zip3 {A B C} (f : A -> B -> C) (s : t3 A) (t : t3 B) : t3 C := T3 (f (ax s) (ax t)) (f (ay s) (ay t)) (f (az s) (az t)).
Definition all3 (t : t3 bool) : bool := ax t && ay t && az t.

Section Make.
Variables I T : Type.
Variable translation : fl -> fl -> fl -> I.   (* a translation without rotation, in double arithmetic *)
Variable identity : I.
Variable inv : I -> I.                        (* Isometry3d::inverse *)
Variable maxn : Z.                            (* resize beyond it throws *)

(** voxel_grid.hpp 33-53: the members. *)
Record vg := Vg {
  v_origin : I; v_inverse : I; v_default : T; v_oob : T; v_data : list T; v_cell : t3 fl; v_inv_cell : t3 fl; v_size : t3 fl;
  v_stride1 : Z; v_stride2 : Z; v_n : t3 Z; v_init : bool }.

(** 142-180: SafetyCheckSizes with counts; 84-140: with sizes. *)
Definition check_counts (c : t3 fl) (n : t3 Z) : bool := all3 (map3 checked c) && all3 (map3 (fun k => negb (k <=? 0)) n).
Definition check_sizes (c s : t3 fl) : bool := all3 (map3 checked c) && all3 (map3 checked s).
(** 352-363 and 375-388: Initialize with counts, of the object [g], with CoreInitialize (182-203) and SetContents (79-82); [place] is origin_transform,
    None for the overload without it.  The object after an exception is the first component. *)
Definition initialize (place : option I) (g : vg) (c : t3 fl) (n : t3 Z) (d o : T) : vg * outcome unit :=
  if negb (check_counts c n) then (g, Throw InvalidArgument)
  else
    let cell := map3 b64_abs c in
    let inv_cell := map3 (b64_div NE f_one) cell in
    let size := zip3 (fun k x => b64_mult NE (f_of_Z k) x) n cell in
    match ck (ay n * az n), (let! m := ck (ax n * ay n) in ck (m * az n)) with
    | Ok s1, Ok total =>
        if total <=? maxn then
          let origin := match place with
                        | Some t => t
                        | None => let h := fun x => b64_mult NE (b64_opp x) f_half in translation (h (ax size)) (h (ay size)) (h (az size))
                        end in
          (Vg origin (inv origin) d o (repeat d (Z.to_nat total)) cell inv_cell size s1 (az n) n true, Ok tt)
        else (Vg (v_origin g) (v_inverse g) d o [] cell inv_cell size s1 (az n) n (v_init g), Throw LengthError)
    | _, _ => (g, UB)
    end.
(** 341-350 and 365-373: Initialize with sizes. *)
Definition initialize_sizes (place : option I) (g : vg) (c s : t3 fl) (d o : T) : vg * outcome unit :=
  if negb (check_sizes c s) then (g, Throw InvalidArgument)
  else
    match count (ax s) (ax c), count (ay s) (ay c), count (az s) (az c) with
    | Ok nx, Ok ny, Ok nz => initialize place g c (T3 nx ny nz) d o
    | _, _, _ => (g, UB)
    end.

(** The arguments of the sixteen constructors 221-310: with or without a transform, one cell size or three, sizes or counts, with or without an
    out-of-bounds value. *)
Inductive cells := One (c : fl) | Three (cx cy cz : fl).
Inductive extent := Sizes (x y z : fl) | Counts (nx ny nz : Z).
Definition construct (junk : vg) (place : option I) (cs : cells) (e : extent) (d : T) (oob : option T) : outcome vg :=
  let c := match cs with One c => T3 c c c | Three x y z => T3 x y z end in
  let o := match oob with Some o => o | None => d end in
  match match e with
        | Sizes x y z => initialize_sizes place junk c (T3 x y z) d o
        | Counts x y z => initialize place junk c (T3 x y z) d o
        end with
  | (g, Ok _) => Ok g
  | (_, Throw e) => Throw e
  | (_, AssertFail) => AssertFail
  | (_, NoFuel) => NoFuel
  | (_, UB) => UB
  end.
(** 312-333: the default constructor; default_value_ and oob_value_ are those of T. *)
Definition blank (d0 : T) : vg :=
  let z := T3 f_zero f_zero f_zero in Vg identity (inv identity) d0 d0 [] z z z 0 0 (T3 0 0 0) false.

(** ** The dynamic grid *)
(** dynamic_spatial_hashed_voxel_grid.hpp 370-385: the members without the chunks, which Initialize makes empty, and the strides. *)
Record dg := Dg { d_origin : I; d_inverse : I; d_default : T; d_cell : t3 fl; d_size : t3 fl; d_n : t3 Z; d_init : bool }.
(** 495-515: Initialize with CoreInitialize 428-445 (strides: the product may overflow); the checks are those of 387-426. *)
Definition d_initialize (place : option I) (g : dg) (c : t3 fl) (n : t3 Z) (d : T) : dg * outcome unit :=
  if negb (check_counts c n) then (g, Throw InvalidArgument)
  else
    let cell := map3 b64_abs c in
    match ck (ay n * az n) with
    | Ok _ =>
        let origin := match place with Some t => t | None => identity end in
        (Dg origin (inv origin) d cell (zip3 (fun x k => b64_mult NE x (f_of_Z k)) cell n) n true, Ok tt)
    | _ => (g, UB)
    end.
(** 478-493: the default constructor. *)
Definition d_blank (d0 : T) : dg := let z := T3 f_zero f_zero f_zero in Dg identity (inv identity) d0 z z (T3 0 0 0) true.
(** 549-563: GetContainingChunkRegion, a point in the grid frame; [dbg] tells whether assertions are compiled. *)
Definition region (dbg : bool) (g : dg) (p : t3 fl) : outcome (t3 fl) :=
  cassert dbg (d_init g)
  (let! x := f_floor (b64_div NE (ax p) (ax (d_size g))) in
   let! y := f_floor (b64_div NE (ay p) (ay (d_size g))) in
   let! z := f_floor (b64_div NE (az p) (az (d_size g))) in
   Ok (T3 (b64_mult NE (f_of_Z x) (ax (d_size g))) (b64_mult NE (f_of_Z y) (ay (d_size g))) (b64_mult NE (f_of_Z z) (az (d_size g))))).
End Make.
