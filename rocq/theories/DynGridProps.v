(** Properties of DynamicSpatialHashedVoxelGrid: C23, C24. *)
From Verif Require Import Base VoxelModel VoxelGeom VoxelGeomProofs DynGridModel DynGridSpec DynGridProofs VoxelFloat DynGridFloat.
From Coq Require Import Reals Lra.
From Flocq Require Import Core.Raux.
Open Scope nat_scope.

Definition dyn_args_ok (maxn : Z) (cell : vec) (nx ny nz : Z) : Prop :=
  (0 < nx /\ 0 < ny /\ 0 < nz)%Z /\ (0 < vx cell /\ 0 < vy cell /\ 0 < vz cell)%R /\
  (nx * ny * nz <= maxn /\ nx * ny * nz <= int64_max)%Z.

(** C23: with real-number coordinates, a grid of any valid shape in any frame answers every history of calls at
    locations whose chunk numbers fit in an int64_t exactly as the map from cells to values does.  No assertion
    fails, nothing is undefined, and writes never leak into other cells or chunks. *)
Theorem C23_grid_is_a_map_on_space : forall (T : Type) maxn dbg origin cell nx ny nz (d : T) (history : list (dop T)),
  dyn_args_ok maxn cell nx ny nz -> Forall (dop_ok origin cell nx ny nz) history ->
  exists g', drun maxn dbg (dg_make origin cell nx ny nz d) history
    = Ok (g', d_run origin cell nx ny nz (d_fresh d) history).
Proof.
  intros T maxn dbg origin cell nx ny nz d h ((Hx & Hy & Hz) & (Cx & Cy & Cz) & Hm & H64) F.
  eapply drun_refines; eauto. apply make_refines.
Qed.
Print Assumptions C23_grid_is_a_map_on_space.

(** C23 as used by a client: after any history, a value set at one location is read at exactly the locations of
    the same cell; the others keep their values. *)
Theorem C23_read_after_write : forall (T : Type) maxn dbg origin cell nx ny nz (d : T) h loc loc' v,
  dyn_args_ok maxn cell nx ny nz -> Forall (dop_ok origin cell nx ny nz) h ->
  loc_ok origin cell nx ny nz loc -> loc_ok origin cell nx ny nz loc' ->
  exists g old s s' g', drun maxn dbg (dg_make origin cell nx ny nz d) h = Ok g /\
    dg_get dbg (fst g) loc' = Ok (old, s) /\
    dg_set_cell maxn dbg (fst g) loc v = Ok (g', SET_CELL) /\
    dg_get dbg g' loc' = Ok (if tri_eqb (cell_of origin cell loc) (cell_of origin cell loc') then v else old, s').
Proof.
  intros T maxn dbg origin cell nx ny nz d h loc loc' v ((Hx & Hy & Hz) & (Cx & Cy & Cz) & Hm & H64) F L L'.
  destruct (drun_state maxn dbg origin cell nx ny nz Hx Hy Hz Cx Cy Cz Hm H64 h _ _ (make_refines origin cell nx ny nz d) F)
    as (g & a & rs & E & R).
  destruct (set_cell_refines maxn dbg origin cell nx ny nz Hx Hy Hz Cx Cy Cz Hm H64 g a loc v R L) as (g' & E' & R').
  eexists _, _, _, _, g'. split; [exact E|]. cbn [fst].
  split; [apply (get_refines maxn dbg origin cell nx ny nz Hx Hy Hz Cx Cy Cz Hm H64); eauto|]. split; [exact E'|].
  rewrite (get_refines maxn dbg origin cell nx ny nz Hx Hy Hz Cx Cy Cz Hm H64 _ _ loc' R' L').
  match goal with |- Ok (?x, ?s) = Ok (?y, _) => assert (x = y) as -> end; [|reflexivity].
  unfold d_step, fst. set (k := cell_of origin cell loc). set (k' := cell_of origin cell loc'). clearbody k k'.
  unfold d_value at 1, with_status, d_status, d_cell.
  destruct (tri_spec (chunk_of nx ny nz k) (chunk_of nx ny nz k')) as [E1|N1].
  - reflexivity.
  - destruct (tri_spec k k') as [E2|N2]; [congruence|reflexivity].
Qed.
Print Assumptions C23_read_after_write.

(** C23 is false in double arithmetic: with cells of size 0.1 in chunks of 2 x 2 x 2, the location (3.4, 0.5, 0.5)
    belongs to no cell; SetCellValue there reports NOT_SET and the value is lost.  (3.4 / 0.2 rounds up to 17,
    and 17 * 0.2 is above 3.4.) *)
Theorem C23_double_rounding_refuted : exists cell n x y z,
  f_stores cell n y y z = Ok true /\ f_stores cell n x y z = Ok false.
Proof. exists f_0_1, 2%Z, f_3_4, f_0_5, f_0_5. split; vm_compute; reflexivity. Qed.
Print Assumptions C23_double_rounding_refuted.

(** ** C24 *)

(** The overload taking a location sets every cell of the chunk. *)
Theorem C24_by_location_sets_whole_chunk : forall (T : Type) maxn dbg origin cell nx ny nz (d : T) h loc loc' v,
  dyn_args_ok maxn cell nx ny nz -> Forall (dop_ok origin cell nx ny nz) h ->
  loc_ok origin cell nx ny nz loc -> loc_ok origin cell nx ny nz loc' ->
  chunk_of nx ny nz (cell_of origin cell loc) = chunk_of nx ny nz (cell_of origin cell loc') ->
  exists g g', drun maxn dbg (dg_make origin cell nx ny nz d) h = Ok g /\
    dg_set_chunk dbg (fst g) loc v = Ok (g', SET_CHUNK) /\ dg_get dbg g' loc' = Ok (v, FOUND_IN_CHUNK).
Proof.
  intros T maxn dbg origin cell nx ny nz d h loc loc' v ((Hx & Hy & Hz) & (Cx & Cy & Cz) & Hm & H64) F L L' Q.
  destruct (drun_state maxn dbg origin cell nx ny nz Hx Hy Hz Cx Cy Cz Hm H64 h _ _ (make_refines origin cell nx ny nz d) F)
    as (g & a & rs & E & R).
  destruct (set_chunk_refines maxn dbg origin cell nx ny nz Hx Hy Hz Cx Cy Cz Hm H64 g a loc v R L) as (g' & E' & R').
  eexists _, g'. split; [exact E|]. cbn [fst]. split; [exact E'|].
  rewrite (get_refines maxn dbg origin cell nx ny nz Hx Hy Hz Cx Cy Cz Hm H64 _ _ loc' R' L').
  unfold d_step, fst. revert Q. set (k := cell_of origin cell loc). set (k' := cell_of origin cell loc'). clearbody k k'. intros Q.
  unfold d_value, with_status, d_status, d_cell. rewrite Q.
  destruct (tri_spec (chunk_of nx ny nz k') (chunk_of nx ny nz k')); [|congruence]. reflexivity.
Qed.
Print Assumptions C24_by_location_sets_whole_chunk.

Definition ident : iso :=
  {| r1 := {| vx := 1; vy := 0; vz := 0 |}; r2 := {| vx := 0; vy := 1; vz := 0 |}; r3 := {| vx := 0; vy := 0; vz := 1 |};
     tr := {| vx := 0; vy := 0; vz := 0 |} |}%R.
Definition unit_cells : vec := {| vx := 1; vy := 1; vz := 1 |}%R.
Definition at3 (x y z : R) : vec := {| vx := x; vy := y; vz := z |}.

Lemma cell_of_ident x y z i j k :
  (IZR i <= x < IZR i + 1)%R -> (IZR j <= y < IZR j + 1)%R -> (IZR k <= z < IZR k + 1)%R ->
  cell_of ident unit_cells (at3 x y z) = (i, j, k).
Proof.
  intros A B C. unfold cell_of, ident, unit_cells, at3, apply, inverse, dot, col1, col2, col3; cbn [vx vy vz r1 r2 r3 tr].
  assert (E : forall u n, (IZR n <= u < IZR n + 1)%R -> forall u', u' = u -> Zfloor u' = n).
  { intros u n H u' ->. apply Zfloor_imp. rewrite plus_IZR. exact H. }
  rewrite (E x i A), (E y j B), (E z k C) by lra. reflexivity.
Qed.

Lemma ident_args : dyn_args_ok 100 unit_cells 2 2 2.
Proof. split; [lia|]. split; [cbn; lra|]. split; vm_compute; discriminate. Qed.

Lemma loc_ok_small x y z i j k :
  (IZR i <= x < IZR i + 1)%R -> (IZR j <= y < IZR j + 1)%R -> (IZR k <= z < IZR k + 1)%R ->
  (-100 <= i <= 100 /\ -100 <= j <= 100 /\ -100 <= k <= 100)%Z -> loc_ok ident unit_cells 2 2 2 (at3 x y z).
Proof.
  intros A B C D. unfold loc_ok. rewrite (cell_of_ident x y z i j k A B C). cbn [chunk_of].
  unfold int64_min, int64_max. assert (forall u, (-100 <= u <= 100 -> -100 <= u / 2 <= 100)%Z) as Q.
  { intros u U. split; [apply Z.div_le_lower_bound|apply Z.div_le_upper_bound]; lia. }
  pose proof (Q i). pose proof (Q j). pose proof (Q k). lia.
Qed.

(** C24: the overload taking three coordinates sets a single cell: on a fresh grid the neighbouring cell of the
    same chunk keeps the default. *)
Theorem C24_by_coordinates_refuted : exists (g g' : dgrid nat) x y z loc',
  g = dg_make ident unit_cells 2 2 2 0 /\
  chunk_of 2 2 2 (cell_of ident unit_cells (at3 x y z)) = chunk_of 2 2 2 (cell_of ident unit_cells loc') /\
  dg_set_chunk_xyz 100 true g x y z 5 = Ok (g', SET_CELL) /\
  dg_get true g' loc' = Ok (0, FOUND_IN_CELL).
Proof.
  destruct ident_args as ((Hx & Hy & Hz) & (Cx & Cy & Cz) & Hm & H64).
  assert (I0 : forall P : Prop, ((IZR 0 <= 0.5 < IZR 0 + 1)%R -> P) -> P) by (intros P H; apply H; lra).
  assert (I1 : forall P : Prop, ((IZR 1 <= 1.5 < IZR 1 + 1)%R -> P) -> P) by (intros P H; apply H; lra).
  apply I0; intros B0. apply I1; intros B1.
  assert (R0 : drefines ident unit_cells 2 2 2 (dg_make ident unit_cells 2 2 2 0) (d_fresh 0)) by apply make_refines.
  assert (L : loc_ok ident unit_cells 2 2 2 (at3 0.5 0.5 0.5)) by (apply (loc_ok_small _ _ _ 0 0 0); auto; lia).
  assert (L' : loc_ok ident unit_cells 2 2 2 (at3 1.5 0.5 0.5)) by (apply (loc_ok_small _ _ _ 1 0 0); auto; lia).
  destruct (set_cell_refines 100 true ident unit_cells 2 2 2 Hx Hy Hz Cx Cy Cz Hm H64 _ _ (at3 0.5 0.5 0.5) 5 R0 L) as (g2 & E2 & R2).
  pose proof (get_refines 100 true ident unit_cells 2 2 2 Hx Hy Hz Cx Cy Cz Hm H64 _ _ (at3 1.5 0.5 0.5) R2 L') as E3.
  exists (dg_make ident unit_cells 2 2 2 0), g2, 0.5%R, 0.5%R, 0.5%R, (at3 1.5 0.5 0.5).
  split; [reflexivity|]. unfold d_step in E3.
  rewrite (cell_of_ident _ _ _ 0 0 0 B0 B0 B0), (cell_of_ident _ _ _ 1 0 0 B1 B0 B0) in *.
  split; [reflexivity|]. split; [exact E2|]. exact E3.
Qed.
Print Assumptions C24_by_coordinates_refuted.

(** The hypotheses of C23 and C24 are met, with locations on both sides of the origin. *)
Example C23_example :
  dyn_args_ok 100 unit_cells 2 2 2 /\
  Forall (dop_ok ident unit_cells 2 2 2)
    [DSetCell (at3 0.5 0.5 0.5) 5; DSetChunk (at3 (-0.5) 0.5 0.5) 6; DGet (at3 0.5 0.5 0.5); DWrite (at3 (-1.5) 0.5 0.5) 7] /\
  d_run ident unit_cells 2 2 2 (d_fresh 0)
    [DSetCell (at3 0.5 0.5 0.5) 5; DSetChunk (at3 (-0.5) 0.5 0.5) 6; DGet (at3 0.5 0.5 0.5); DWrite (at3 (-1.5) 0.5 0.5) 7]
  = [DSet SET_CELL; DSet SET_CHUNK; DVal 5 FOUND_IN_CELL; DFound FOUND_IN_CHUNK].
Proof.
  split; [apply ident_args|].
  assert (B0 : (IZR 0 <= 0.5 < IZR 0 + 1)%R) by lra.
  assert (B1 : (IZR (-1) <= -0.5 < IZR (-1) + 1)%R) by lra.
  assert (B2 : (IZR (-2) <= -1.5 < IZR (-2) + 1)%R) by lra.
  split.
  - apply Forall_cons; [|apply Forall_cons; [|apply Forall_cons; [|apply Forall_cons; [|apply Forall_nil]]]]; unfold dop_ok.
    + apply (loc_ok_small _ _ _ 0 0 0); auto; lia.
    + apply (loc_ok_small _ _ _ (-1) 0 0); auto; lia.
    + apply (loc_ok_small _ _ _ 0 0 0); auto; lia.
    + apply (loc_ok_small _ _ _ (-2) 0 0); auto; lia.
  - unfold d_run, d_step. rewrite (cell_of_ident _ _ _ _ _ _ B0 B0 B0), (cell_of_ident _ _ _ _ _ _ B1 B0 B0), (cell_of_ident _ _ _ _ _ _ B2 B0 B0).
    reflexivity.
Qed.
