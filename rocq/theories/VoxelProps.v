(** Properties of VoxelGrid: storage (C20), geometry (C21), serialization (C22). *)
From Verif Require Import Base SerModel SerSpec SerProofs GraphSerProofs VoxelModel VoxelSpec VoxelProofs VoxelGeom VoxelGeomProofs
  VoxelFloat VoxelSer.
From Coq Require Import Strings.Byte Reals Lra.
From Flocq Require Import IEEE754.Bits IEEE754.Binary Core.Raux.
Open Scope nat_scope.

(** C20: a freshly initialized grid of any valid size answers every history of client calls exactly as the
    abstract map does: no undefined behaviour, no exception, no aliasing between cells. *)
Theorem C20_grid_is_a_map : forall (T : Type) maxn nx ny nz geo (d o : T) (history : list (op T)),
  (0 < nx)%Z -> (0 < ny)%Z -> (0 < nz)%Z -> (nx * ny * nz <= maxn)%Z -> (nx * ny * nz <= int64_max)%Z ->
  exists g g', initialize maxn true geo nx ny nz d o = Ok g /\
    run maxn g history = Ok (g', a_run nx ny nz (a_fresh d o) history).
Proof.
  intros T maxn nx ny nz geo d o h Hx Hy Hz Hm H64.
  destruct (init_refines maxn nx ny nz Hx Hy Hz Hm H64 geo d o) as (g & E & R).
  destruct (run_refines maxn nx ny nz Hx Hy Hz Hm H64 h g _ R) as (g' & E'). eauto.
Qed.
Print Assumptions C20_grid_is_a_map.

(** C20: initialization rejects bad arguments by an exception, and a product of sizes that does not fit in
    int64_t is undefined behaviour rather than an error. *)
Theorem C20_initialize_checks : forall (T : Type) maxn cells_ok nx ny nz geo (d o : T),
  cells_ok = false \/ (nx <= 0)%Z \/ (ny <= 0)%Z \/ (nz <= 0)%Z ->
  initialize maxn cells_ok geo nx ny nz d o = Throw InvalidArgument.
Proof.
  intros T maxn c nx ny nz geo d o H. unfold initialize. destruct c; [|reflexivity]. cbn [negb].
  destruct H as [H|H]; [discriminate|].
  destruct (Z.leb_spec nx 0), (Z.leb_spec ny 0), (Z.leb_spec nz 0); try reflexivity. lia.
Qed.
Print Assumptions C20_initialize_checks.

Definition geo0 : geometry :=
  {| geo_origin := repeat 0%N 16; geo_inverse := repeat 0%N 16; geo_cell := (0, 0, 0)%N; geo_inv_cell := (0, 0, 0)%N;
     geo_size := (0, 0, 0)%N |}.

Theorem C20_size_overflow_refuted : exists nx ny nz,
  (0 < nx <= int64_max /\ 0 < ny <= int64_max /\ 0 < nz <= int64_max)%Z /\
  initialize (T := nat) int64_max true geo0 nx ny nz 0 0 = UB.
Proof. exists (2 ^ 32)%Z, (2 ^ 32)%Z, 1%Z. split; [unfold int64_max; lia|vm_compute; reflexivity]. Qed.
Print Assumptions C20_size_overflow_refuted.

(** C20: ResetWithNewValue given a reference obtained from the grid itself uses a destroyed object: every grid
    that has the cell. *)
Theorem C20_reset_from_own_cell_refuted : exists g : vgrid nat,
  initialize 1000 true geo0 2 2 2 7 9 = Ok g /\ get g 0 0 0 = Ok (7, true) /\ reset_from_cell 1000 g 0 0 0 = UB.
Proof. eexists. split; [vm_compute; reflexivity|]. split; vm_compute; reflexivity. Qed.
Print Assumptions C20_reset_from_own_cell_refuted.

(** The hypotheses are met and the history is not trivial. *)
Example C20_example :
  exists g g', initialize 1000 true geo0 2 3 4 0 99 = Ok g /\
  run 1000 g [OSet 1 2 3 5; OGet 1 2 3; OGet 0 2 3; OGet 2 0 0; OWrite 2 0 0 77; OGet (-1) 0 0; OSetDefault 8; OResetDefault; OGet 1 2 3]
  = Ok (g', [RBool true; RCell 5 true; RCell 0 true; RCell 99 false; RBool false; RCell 77 false; RUnit; RUnit; RCell 8 true]).
Proof. do 2 eexists. split; [vm_compute; reflexivity|]. vm_compute. reflexivity. Qed.

(** ** C21 *)

(** The volume of the grid in its own frame, and validity of the geometry. *)
Definition in_volume (g : geom) (p : vec) : Prop :=
  (0 <= vx p < IZR (g_nx g) * vx (g_cell g) /\ 0 <= vy p < IZR (g_ny g) * vy (g_cell g) /\
   0 <= vz p < IZR (g_nz g) * vz (g_cell g))%R.

Definition geom_ok (g : geom) : Prop :=
  rigid (g_origin g) /\ (0 < vx (g_cell g) /\ 0 < vy (g_cell g) /\ 0 < vz (g_cell g))%R /\
  (0 < g_nx g <= int64_max /\ 0 < g_ny g <= int64_max /\ 0 < g_nz g <= int64_max)%Z.

(** C21: the location of every cell's centre maps back to the cell, for any pose of the grid. *)
Theorem C21_centre_maps_back : forall g x y z,
  geom_ok g -> geom_in_bounds g (x, y, z) = true ->
  location_to_index g (index_to_location g x y z) = Ok (x, y, z).
Proof.
  intros g x y z (R & (Cx & Cy & Cz) & (Nx & Ny & Nz)) B. unfold geom_in_bounds in B.
  unfold location_to_index, index_to_location, g_inverse. rewrite inverse_apply by auto.
  unfold point_to_index, index_to_point, g_inv_cell. cbn [vx vy vz].
  rewrite !axis_centre by (auto; lia). reflexivity.
Qed.
Print Assumptions C21_centre_maps_back.

(** C21: a point of the volume is in bounds, and it lies in the cell it is mapped to. *)
Theorem C21_point_lies_in_its_cell : forall g p,
  geom_ok g -> in_volume g p ->
  exists x y z, location_to_index g (apply (g_origin g) p) = Ok (x, y, z) /\ geom_in_bounds g (x, y, z) = true /\
    (vx (g_cell g) * IZR x <= vx p < vx (g_cell g) * (IZR x + 1) /\
     vy (g_cell g) * IZR y <= vy p < vy (g_cell g) * (IZR y + 1) /\
     vz (g_cell g) * IZR z <= vz p < vz (g_cell g) * (IZR z + 1))%R.
Proof.
  intros g p (R & (Cx & Cy & Cz) & (Nx & Ny & Nz)) (Vx & Vy & Vz).
  destruct (axis_inside _ _ _ Cx Nx Vx) as (x & Ex & Bx & Ix).
  destruct (axis_inside _ _ _ Cy Ny Vy) as (y & Ey & By & Iy).
  destruct (axis_inside _ _ _ Cz Nz Vz) as (z & Ez & Bz & Iz).
  exists x, y, z. split; [|split; [|auto]].
  - unfold location_to_index, g_inverse. rewrite inverse_apply by auto.
    unfold point_to_index, g_inv_cell. cbn [vx vy vz]. rewrite Ex, Ey, Ez. reflexivity.
  - unfold geom_in_bounds. lia.
Qed.
Print Assumptions C21_point_lies_in_its_cell.

(** C21, exact extent of LocationInBounds: one cell further than the volume on the negative side of every axis,
    because the conversion to integers truncates toward zero. *)
Theorem C21_in_bounds_extent_partial : forall g p,
  geom_ok g ->
  (- IZR int64_max * vx (g_cell g) < vx p < IZR int64_max * vx (g_cell g) /\
   - IZR int64_max * vy (g_cell g) < vy p < IZR int64_max * vy (g_cell g) /\
   - IZR int64_max * vz (g_cell g) < vz p < IZR int64_max * vz (g_cell g))%R ->
  exists b, location_in_bounds g (apply (g_origin g) p) = Ok b /\
    (b = true <->
     (- vx (g_cell g) < vx p < IZR (g_nx g) * vx (g_cell g) /\
      - vy (g_cell g) < vy p < IZR (g_ny g) * vy (g_cell g) /\
      - vz (g_cell g) < vz p < IZR (g_nz g) * vz (g_cell g))%R).
Proof.
  intros g p (R & (Cx & Cy & Cz) & (Nx & Ny & Nz)) (Vx & Vy & Vz).
  assert (AX : forall c q, (0 < c)%R -> (- IZR int64_max * c < q < IZR int64_max * c)%R ->
    to_int64 (q * (1 / c)) = Ok (Ztrunc (q * (1 / c)))).
  { intros c q Hc (A & B). assert (P : (0 < 1 / c)%R) by (apply Rdiv_lt_0_compat; lra).
    assert (E : (1 = c * (1 / c))%R) by (field; lra).
    assert (Q : (- IZR int64_max < q * (1 / c) < IZR int64_max)%R) by (split; nra).
    apply ck_ok. split.
    - replace int64_min with (Ztrunc (IZR int64_min)) by apply Ztrunc_IZR. apply Ztrunc_le.
      apply Rle_trans with (- IZR int64_max)%R; [|lra]. rewrite <- opp_IZR. apply IZR_le. discriminate.
    - replace int64_max with (Ztrunc (IZR int64_max)) by apply Ztrunc_IZR. apply Ztrunc_le. lra. }
  unfold location_in_bounds, location_to_index, g_inverse. rewrite inverse_apply by auto.
  unfold point_to_index, g_inv_cell. cbn [vx vy vz]. rewrite !AX by auto. cbn [obind].
  eexists. split; [reflexivity|]. unfold geom_in_bounds.
  rewrite <- !(scale_lt _ _ _ Cx), <- !(scale_lt _ _ _ Cy), <- !(scale_lt _ _ _ Cz), <- !trunc_bounds by lia.
  lia.
Qed.
Print Assumptions C21_in_bounds_extent_partial.

Definition id_iso : iso :=
  {| r1 := {| vx := 1; vy := 0; vz := 0 |}; r2 := {| vx := 0; vy := 1; vz := 0 |}; r3 := {| vx := 0; vy := 0; vz := 1 |};
     tr := {| vx := 0; vy := 0; vz := 0 |} |}.
Definition unit_grid : geom :=
  {| g_origin := id_iso; g_cell := {| vx := 1; vy := 1; vz := 1 |}; g_nx := 2; g_ny := 2; g_nz := 2 |}.

Lemma unit_grid_ok : geom_ok unit_grid.
Proof. unfold geom_ok, rigid, dot, col1, col2, col3, unit_grid, id_iso, int64_max; cbn. repeat split; try lra; lia. Qed.

(** C21 as a user expects it (in bounds means inside the volume) is false: a point in front of the first cell. *)
Theorem C21_negative_slab_refuted : exists g p,
  geom_ok g /\ ~ in_volume g p /\ location_in_bounds g (apply (g_origin g) p) = Ok true.
Proof.
  exists unit_grid, {| vx := -0.5; vy := 0.5; vz := 0.5 |}. split; [exact unit_grid_ok|]. split.
  - unfold in_volume, unit_grid; cbn. lra.
  - destruct (C21_in_bounds_extent_partial unit_grid {| vx := -0.5; vy := 0.5; vz := 0.5 |} unit_grid_ok) as (b & E & H).
    + unfold unit_grid, int64_max; cbn [vx vy vz g_cell].
      assert (IZR (2 ^ 63 - 1) > 1)%R by (apply Rlt_gt, IZR_lt; reflexivity). lra.
    + rewrite E. f_equal. apply H. unfold unit_grid; cbn. lra.
Qed.
Print Assumptions C21_negative_slab_refuted.

(** C21: far away points are undefined behaviour instead of "out of bounds". *)
Theorem C21_far_point_refuted : exists g p, geom_ok g /\ location_in_bounds g p = UB.
Proof.
  exists unit_grid, {| vx := IZR (2 ^ 63); vy := 0; vz := 0 |}. split; [exact unit_grid_ok|].
  unfold location_in_bounds, location_to_index, point_to_index, to_int64.
  replace (vx (apply (g_inverse unit_grid) {| vx := IZR (2 ^ 63); vy := 0; vz := 0 |}) * vx (g_inv_cell unit_grid))%R
    with (IZR (2 ^ 63)).
  - rewrite Ztrunc_IZR. reflexivity.
  - unfold apply, g_inverse, inverse, unit_grid, id_iso, g_inv_cell, dot, col1; cbn [vx vy vz r1 r2 r3 tr g_origin g_cell]. field.
Qed.
Print Assumptions C21_far_point_refuted.

(** C21: the cell count computed from a requested size is the smallest that covers it. *)
Theorem C21_size_is_covered : forall size cell n,
  (0 < size)%R -> (0 < cell)%R -> count_for size cell = Ok n ->
  (0 < n)%Z /\ (IZR (n - 1) * cell < size <= IZR n * cell)%R.
Proof. exact count_covers. Qed.
Print Assumptions C21_size_is_covered.

(** C21 in IEEE double arithmetic, in the grid's own frame: for every cell size between 2^-900 and 2^900 and
    every index below 2^50 the centre computed by GridIndexToLocationGridFrame is mapped back to the index by
    PointInFrameToGridIndex, in spite of rounding in the two products and the reciprocal. *)
Theorem C21_centre_maps_back_double : forall (cell : binary64) i,
  is_finite 53 1024 cell = true ->
  (bpow Zaux.radix2 (-900) <= B2R 53 1024 cell <= bpow Zaux.radix2 900)%R ->
  (0 <= i < 2 ^ 50)%Z ->
  f_index cell (f_centre cell i) = Ok i.
Proof. exact centre_index. Qed.
Print Assumptions C21_centre_maps_back_double.

(** A cell of 0.1 (not representable), last index of a million cells. *)
Example C21_double_example :
  let cell := b64_div BinarySingleNaN.mode_NE (f_of_Z 1) (f_of_Z 10) in
  f_index cell (f_centre cell 999999) = Ok 999999%Z /\ is_finite 53 1024 cell = true.
Proof. vm_compute. split; reflexivity. Qed.

Example C21_example : geom_ok unit_grid /\ in_volume unit_grid {| vx := 1.5; vy := 0.25; vz := 0 |} /\
  geom_in_bounds unit_grid (1, 0, 1)%Z = true.
Proof. split; [exact unit_grid_ok|]. split; [unfold in_volume, unit_grid; cbn; lra|reflexivity]. Qed.

(** ** C22 *)

(** C22: whatever the grid (initialized or not), its fields come back exactly, from any position in any
    buffer, with the same byte count, given value functions that round-trip. *)
Theorem C22_grid_round_trips : forall (T : Type) dbg le maxr (okv : T -> Prop) sv dv,
  round_trips okv sv dv -> round_trips (vgrid_ok maxr okv) (ser_vgrid le sv) (de_vgrid dbg le maxr dv).
Proof. intros. apply vgrid_round_trips. assumption. Qed.
Print Assumptions C22_grid_round_trips.

(** C22: the grid read back answers every later history as the original would. *)
Theorem C22_behaviour_preserved : forall (T : Type) dbg le maxr (okv : T -> Prop) sv dv maxn g buf,
  round_trips okv sv dv -> vgrid_ok maxr okv g ->
  exists buf' n g', ser_vgrid le sv g buf = Ok (buf', n) /\ de_vgrid dbg le maxr dv buf' (length buf) = Ok (g', n) /\
    n = length buf' - length buf /\
    forall history, run maxn g' history = run maxn g history.
Proof.
  intros T dbg le maxr okv sv dv maxn g buf RV H.
  destruct (vgrid_round_trips dbg le maxr sv dv okv RV g H) as (b & _ & S & D).
  exists (buf ++ b), (length b), g. split; [apply S|]. split.
  - specialize (D buf []). rewrite app_nil_r in D. exact D.
  - split; [rewrite app_sub_length; reflexivity|reflexivity].
Qed.
Print Assumptions C22_behaviour_preserved.

Example C22_example :
  let g := {| vg_geo := {| geo_origin := repeat 1%N 16; geo_inverse := repeat 2%N 16; geo_cell := (3, 4, 5)%N;
                           geo_inv_cell := (6, 7, 8)%N; geo_size := (9, 10, 11)%N |};
              vg_init := true; vg_default := 12%N; vg_oob := 13%N; vg_data := [14; 15]%N;
              vg_s1 := 2%Z; vg_s2 := 2%Z; vg_nx := 1%Z; vg_ny := 1%Z; vg_nz := 2%Z |} in
  vgrid_ok 100 (fun x => (x < 256 ^ 8)%N) g /\
  exists buf, ser_vgrid true (ser_pod (uint_pod true 8)) g [x01] = Ok (buf, 409) /\
    de_vgrid true true 100 (de_pod true (uint_pod true 8)) buf 1 = Ok (g, 409).
Proof.
  split.
  - unfold vgrid_ok, iso_ok, size_ok, i64_ok, ok3, u64_ok. cbn.
    repeat split; try lia; repeat (constructor; try lia).
  - eexists. split; [vm_compute; reflexivity|]. vm_compute. reflexivity.
Qed.
