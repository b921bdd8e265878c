(** The dynamic grid refines its specification. *)
From Verif Require Import Base VoxelModel VoxelSpec VoxelProofs VoxelGeom VoxelGeomProofs Assoc DynGridModel DynGridSpec.
From Coq Require Import Reals Lra.
From Flocq Require Import Core.Raux.

Lemma region_spec a b : reflect (a = b) (region_eqb a b).
Proof.
  destruct a as [x y z], b as [x' y' z']. unfold region_eqb; cbn [vx vy vz].
  destruct (Req_EM_T x x'); [|constructor; congruence]. destruct (Req_EM_T y y'); [|constructor; congruence].
  destruct (Req_EM_T z z'); constructor; congruence.
Qed.

Lemma tri_spec a b : reflect (a = b) (tri_eqb a b).
Proof.
  destruct a as [[x y] z], b as [[x' y'] z']. unfold tri_eqb.
  destruct (Z.eqb_spec x x'), (Z.eqb_spec y y'), (Z.eqb_spec z z'); constructor; congruence.
Qed.

Lemma rltb_false a b : (b <= a)%R -> rltb a b = false.
Proof. intros H. unfold rltb. destruct (Rlt_dec a b); auto. lra. Qed.

(** One axis. *)
Lemma nR n : (0 < n)%Z -> (1 <= IZR n)%R. Proof. intros. apply IZR_le. lia. Qed.
Section A.
Variables (c : R) (n : Z) (p : R).
Hypothesis Hc : (0 < c)%R.
Hypothesis Hn : (0 < n)%Z.
Let k := Zfloor (p / c).

Lemma k_bounds : (IZR k * c <= p < (IZR k + 1) * c)%R.
Proof.
  pose proof (Zfloor_lb (p / c)) as L. pose proof (Zfloor_ub (p / c)) as U. fold k in L, U. clearbody k.
  assert (E : p = (p / c * c)%R) by (field; lra). revert E L U. generalize (p / c)%R. intros u E L U. rewrite E.
  split; nra.
Qed.
Lemma k_split : (IZR k = IZR n * IZR (k / n) + IZR (k mod n))%R.
Proof. rewrite <- mult_IZR, <- plus_IZR. f_equal. apply Z.div_mod. lia. Qed.
Lemma m_bounds : (0 <= IZR (k mod n) <= IZR n - 1)%R.
Proof. rewrite <- minus_IZR. pose proof (Z.mod_pos_bound k n Hn). split; apply IZR_le; lia. Qed.

Lemma local_bounds : (0 <= p - IZR (k / n) * (c * IZR n) < c * IZR n)%R.
Proof.
  pose proof k_bounds. pose proof k_split. pose proof m_bounds. pose proof (nR n Hn). split; nra.
Qed.
Lemma chunk_number : Zfloor (p / (c * IZR n)) = (k / n)%Z.
Proof.
  pose proof local_bounds. pose proof (nR n Hn).
  assert (S : (0 < c * IZR n)%R) by nra.
  apply Zfloor_imp. rewrite plus_IZR.
  assert (E : p = (p / (c * IZR n) * (c * IZR n))%R) by (field; split; lra).
  revert E. generalize (p / (c * IZR n))%R. intros u E. rewrite E in *. split; nra.
Qed.
Lemma cell_number : Ztrunc ((p - IZR (k / n) * (c * IZR n)) / c) = (k mod n)%Z.
Proof.
  pose proof k_bounds. pose proof k_split as KS. pose proof m_bounds.
  apply trunc_pos; [apply Z.mod_pos_bound; lia|].
  set (l := (p - IZR (k / n) * (c * IZR n))%R).
  assert (L : (IZR (k mod n) * c <= l < (IZR (k mod n) + 1) * c)%R) by (unfold l; rewrite KS in *; nra).
  assert (E : l = (l / c * c)%R) by (field; lra). clearbody l.
  revert E. generalize (l / c)%R. intros u E. rewrite E in L. split; nra.
Qed.
End A.

Section S.
Context {T : Type}.
Variables (maxn : Z) (dbg : bool) (origin : iso) (cell : vec) (nx ny nz : Z).
Hypothesis Hx : (0 < nx)%Z.
Hypothesis Hy : (0 < ny)%Z.
Hypothesis Hz : (0 < nz)%Z.
Hypothesis Cx : (0 < vx cell)%R.
Hypothesis Cy : (0 < vy cell)%R.
Hypothesis Cz : (0 < vz cell)%R.
Hypothesis Hmax : (nx * ny * nz <= maxn)%Z.
Hypothesis H64 : (nx * ny * nz <= int64_max)%Z.

Notation chunk_of := (chunk_of nx ny nz).
Notation cell_of := (cell_of origin cell).

Definition size : vec := {| vx := vx cell * IZR nx; vy := vy cell * IZR ny; vz := vz cell * IZR nz |}%R.
Definition base (q : tri) : vec :=
  let '(x, y, z) := q in {| vx := IZR x * vx size; vy := IZR y * vy size; vz := IZR z * vz size |}%R.

Lemma base_inj q q' : base q = base q' -> q = q'.
Proof.
  destruct q as [[x y] z], q' as [[x' y'] z']. unfold base, size; cbn [vx vy vz]. intros [= A B C].
  pose proof (nR nx Hx). pose proof (nR ny Hy). pose proof (nR nz Hz).
  assert (forall c n u u', (0 < c)%R -> (1 <= IZR n)%R -> (IZR u * (c * IZR n) = IZR u' * (c * IZR n))%R -> u = u') as I.
  { intros c n u u' P1 P2 E. apply eq_IZR. apply Rmult_eq_reg_r in E; auto. nra. }
  rewrite (I _ _ _ _ Cx H A), (I _ _ _ _ Cy H0 B), (I _ _ _ _ Cz H1 C). reflexivity.
Qed.

Lemma base_eqb q q' : region_eqb (base q) (base q') = tri_eqb q q'.
Proof.
  destruct (region_spec (base q) (base q')) as [E|N], (tri_spec q q') as [E'|N']; auto.
  - apply base_inj in E. congruence.
  - subst. congruence.
Qed.

(** Position of a cell in its chunk. *)
Definition pos (k : tri) : Z := let '(x, y, z) := k in (((x mod nx) * ny + y mod ny) * nz + z mod nz)%Z.

Lemma pos_inside x y z : inside nx ny nz (x mod nx) (y mod ny) (z mod nz) = true.
Proof. apply inside_iff; auto. repeat split; apply Z.mod_pos_bound; auto. Qed.
Lemma pos_range k : (0 <= pos k < nx * ny * nz)%Z.
Proof. destruct k as [[x y] z]. apply (idx_range nx ny nz); auto. apply pos_inside. Qed.
Lemma pos_inj k k' : chunk_of k = chunk_of k' -> pos k = pos k' -> k = k'.
Proof.
  destruct k as [[x y] z], k' as [[x' y'] z']. unfold DynGridSpec.chunk_of, pos. intros [= A B C] E.
  destruct (idx_inj nx ny nz _ _ _ _ _ _ (pos_inside x y z) (pos_inside x' y' z') E) as (E1 & E2 & E3).
  rewrite (Z.div_mod x nx), (Z.div_mod y ny), (Z.div_mod z nz), A, B, C, E1, E2, E3 by lia.
  rewrite <- !Z.div_mod by lia. reflexivity.
Qed.

Definition holds (c : chunk T) (a : dspec T) (q : tri) : Prop :=
  (d_status a q = FOUND_IN_CHUNK /\ ch_cell_init c = false /\ ch_chunk_init c = true /\
   exists v, ch_data c = [v] /\ forall k, chunk_of k = q -> d_cell a k = v) \/
  (d_status a q = FOUND_IN_CELL /\ ch_cell_init c = true /\ ch_base c = base q /\ ch_cell c = cell /\ ch_size c = size /\
   ch_nx c = nx /\ ch_ny c = ny /\ ch_nz c = nz /\ ch_s1 c = (ny * nz)%Z /\ ch_s2 c = nz /\
   length (ch_data c) = Z.to_nat (nx * ny * nz) /\
   forall k, chunk_of k = q -> nth_error (ch_data c) (Z.to_nat (pos k)) = Some (d_cell a k)).

Record drefines (g : dgrid T) (a : dspec T) : Prop := {
  dr_origin : dg_origin g = origin;
  dr_cell : dg_cell g = cell;
  dr_size : dg_size g = size;
  dr_nx : dg_nx g = nx;
  dr_ny : dg_ny g = ny;
  dr_nz : dg_nz g = nz;
  dr_def : dg_default g = d_default a;
  dr_chunks : forall q, match a_find region_eqb (base q) (dg_chunks g) with
                        | None => d_status a q = NOT_FOUND
                        | Some c => holds c a q
                        end
}.

Lemma region_ok g a loc : drefines g a -> loc_ok origin cell nx ny nz loc ->
  containing_region g (grid_point g loc) = Ok (base (chunk_of (cell_of loc))).
Proof.
  intros R L. unfold loc_ok in L. unfold containing_region, grid_point. rewrite (dr_origin _ _ R), (dr_size _ _ R).
  unfold DynGridSpec.cell_of, DynGridSpec.chunk_of in *. set (p := apply (inverse origin) loc) in *.
  unfold size; cbn [vx vy vz]. rewrite !chunk_number by auto.
  destruct L as (L1 & L2 & L3).
  rewrite ck_ok by auto. cbn [obind]. rewrite ck_ok by auto. cbn [obind]. rewrite ck_ok by auto. reflexivity.
Qed.

(** A chunk with separate cells, as far as addressing goes. *)
Definition addressed (c : chunk T) (q : tri) : Prop :=
  ch_cell_init c = true /\ ch_base c = base q /\ ch_cell c = cell /\ ch_size c = size /\
  ch_nx c = nx /\ ch_ny c = ny /\ ch_nz c = nz /\ ch_s1 c = (ny * nz)%Z /\ ch_s2 c = nz /\
  length (ch_data c) = Z.to_nat (nx * ny * nz).

Lemma location_index_ok c loc :
  addressed c (chunk_of (cell_of loc)) ->
  location_index c (apply (inverse origin) loc) = Ok (pos (cell_of loc)).
Proof.
  intros (_ & Eb & Ec & Es & Ex & Ey & Ez & E1 & E2 & _).
  unfold location_index. rewrite Eb, Ec, Es, Ex, Ey, Ez.
  unfold DynGridSpec.cell_of, DynGridSpec.chunk_of, base. set (p := apply (inverse origin) loc) in *.
  unfold vsub, size; cbn [vx vy vz].
  pose proof (local_bounds (vx cell) nx (vx p) Cx Hx) as B1.
  pose proof (local_bounds (vy cell) ny (vy p) Cy Hy) as B2.
  pose proof (local_bounds (vz cell) nz (vz p) Cz Hz) as B3.
  rewrite !rltb_false by lra. cbn [orb].
  pose proof (m3 nx ny nz Hx Hy Hz) as M3.
  assert (MN : (nx <= int64_max /\ ny <= int64_max /\ nz <= int64_max)%Z) by nia.
  assert (TI : forall c0 n0 p0, (0 < c0)%R -> (0 < n0 <= int64_max)%Z ->
    to_int64 ((p0 - IZR (Zfloor (p0 / c0) / n0) * (c0 * IZR n0)) / c0) = Ok (Zfloor (p0 / c0) mod n0)%Z).
  { intros c0 n0 p0 H1 H2. unfold to_int64. rewrite cell_number by (auto; lia). apply ck_ok.
    pose proof (Z.mod_pos_bound (Zfloor (p0 / c0)) n0). unfold int64_min, int64_max in *. lia. }
  rewrite !TI by (auto; lia). cbn [obind].
  set (kx := Zfloor (vx p / vx cell)). set (ky := Zfloor (vy p / vy cell)). set (kz := Zfloor (vz p / vz cell)).
  pose proof (Z.mod_pos_bound kx nx Hx). pose proof (Z.mod_pos_bound ky ny Hy). pose proof (Z.mod_pos_bound kz nz Hz).
  match goal with |- (if ?b then _ else _) = _ => assert (b = false) as -> by lia end.
  pose proof (idx_range nx ny nz Hy Hz _ _ _ (pos_inside kx ky kz)) as IR.
  unfold ch_index, pos. rewrite E1, E2. set (x := (kx mod nx)%Z) in *. set (y := (ky mod ny)%Z) in *. set (z := (kz mod nz)%Z) in *.
  assert (0 <= x * (ny * nz) <= (x * ny + y) * nz + z)%Z by nia.
  assert (0 <= y * nz <= (x * ny + y) * nz + z)%Z by nia.
  unfold int64_max in *.
  rewrite ck_ok by (unfold int64_min, int64_max; lia). cbn [obind].
  rewrite ck_ok by (unfold int64_min, int64_max; lia). cbn [obind].
  rewrite ck_ok by (unfold int64_min, int64_max; lia). cbn [obind].
  rewrite ck_ok by (unfold int64_min, int64_max; lia). f_equal. ring.
Qed.

Lemma cell_position_ok c loc :
  addressed c (chunk_of (cell_of loc)) ->
  cell_position dbg c (apply (inverse origin) loc) = Ok (Some (pos (cell_of loc))).
Proof.
  intros A. unfold cell_position. pose proof (location_index_ok c loc A) as L. destruct A as (E & _ & _ & _ & _ & _ & _ & _ & _ & LD).
  rewrite L. pose proof (pos_range (cell_of loc)).
  unfold cassert. rewrite E. rewrite andb_false_r. cbn [obind].
  destruct (Z.leb_spec 0 (pos (cell_of loc))); [|lia].
  destruct (Z.ltb_spec (pos (cell_of loc)) (Z.of_nat (length (ch_data c)))); [|lia].
  rewrite andb_false_r. reflexivity.
Qed.

Definition put (c : chunk T) (i : Z) (v : T) : chunk T :=
  {| ch_base := ch_base c; ch_initial := ch_initial c; ch_data := upd (ch_data c) (Z.to_nat i) v;
     ch_cell := ch_cell c; ch_size := ch_size c; ch_nx := ch_nx c; ch_ny := ch_ny c; ch_nz := ch_nz c;
     ch_s1 := ch_s1 c; ch_s2 := ch_s2 c; ch_chunk_init := ch_chunk_init c; ch_cell_init := ch_cell_init c |}.

Lemma data_set_ok c q k v : addressed c q -> data_set c (pos k) v = Ok (put c (pos k) v).
Proof.
  intros (_ & _ & _ & _ & _ & _ & _ & _ & _ & LD). unfold data_set. pose proof (pos_range k). rewrite LD.
  destruct (Nat.ltb_spec (Z.to_nat (pos k)) (Z.to_nat (nx * ny * nz))); [reflexivity|lia].
Qed.

Lemma chunk_set_cell_ok c loc v :
  addressed c (chunk_of (cell_of loc)) ->
  chunk_set_cell dbg c (apply (inverse origin) loc) v = Ok (put c (pos (cell_of loc)) v, true).
Proof.
  intros A. unfold chunk_set_cell. rewrite (location_index_ok c loc A). cbn [obind].
  rewrite (data_set_ok c _ _ v A). destruct A as (E & _ & _ & _ & _ & _ & _ & _ & _ & LD).
  pose proof (pos_range (cell_of loc)). unfold cassert. rewrite E, andb_false_r.
  destruct (Z.leb_spec 0 (pos (cell_of loc))); [|lia].
  destruct (Z.ltb_spec (pos (cell_of loc)) (Z.of_nat (length (ch_data c)))); [|lia].
  rewrite andb_false_r. reflexivity.
Qed.

Lemma cell_chunk_ok g a q v : drefines g a -> exists c, cell_chunk maxn g (base q) v = Ok c /\ addressed c q /\
  ch_data c = repeat v (Z.to_nat (nx * ny * nz)).
Proof.
  intros R. unfold cell_chunk. rewrite (dr_nx _ _ R), (dr_ny _ _ R), (dr_nz _ _ R), (dr_cell _ _ R).
  pose proof (m1 ny nz Hy Hz). pose proof (m2 nx ny nz Hx Hy Hz). pose proof (m3 nx ny nz Hx Hy Hz).
  unfold int64_max in *.
  rewrite ck_ok by (unfold int64_min, int64_max; lia). cbn [obind].
  rewrite ck_ok by (unfold int64_min, int64_max; lia). cbn [obind].
  rewrite ck_ok by (unfold int64_min, int64_max; lia). cbn [obind].
  destruct (Z.leb_spec 0 (nx * ny * nz)); [|lia]. destruct (Z.leb_spec (nx * ny * nz) maxn); [|lia]. cbn [andb].
  eexists. split; [reflexivity|]. split; [|reflexivity]. unfold addressed; cbn. rewrite repeat_length. auto 12.
Qed.

(** Replacing the chunk at [q]. *)
Lemma set_refines g a q c s f :
  drefines g a -> holds c (with_status nx ny nz a q s f) q ->
  drefines (set_chunks g (a_set region_eqb (base q) c (dg_chunks g))) (with_status nx ny nz a q s f).
Proof.
  intros [E1 E2 E3 E4 E5 E6 E7 E8] H. constructor; auto.
  intros q'. cbn [set_chunks dg_chunks]. rewrite (a_find_set _ region_spec), base_eqb.
  destruct (tri_spec q' q) as [->|N]; [exact H|].
  specialize (E8 q'). destruct (a_find region_eqb (base q') (dg_chunks g)) as [c'|].
  - unfold holds in *. cbn [with_status d_status d_cell].
    destruct (tri_spec q q') as [->|_]; [congruence|].
    assert (K : forall k, chunk_of k = q' -> (if tri_eqb q (chunk_of k) then f k else d_cell a k) = d_cell a k).
    { intros k <-. destruct (tri_spec q (chunk_of k)); [congruence|reflexivity]. }
    destruct E8 as [(A & B & C & v & D & E)|(A & B & C & D & E & F & G & I & J & L & M & O)].
    + left. repeat (split; [auto|]). exists v. split; auto. intros k HK. rewrite K; auto.
    + right. do 11 (split; [assumption|]). intros k HK. rewrite K; auto.
  - cbn. destruct (tri_spec q q') as [->|_]; [congruence|]. exact E8.
Qed.

Lemma put_holds c a q k v s f :
  addressed c q -> chunk_of k = q -> s = FOUND_IN_CELL ->
  (forall k', chunk_of k' = q -> nth_error (ch_data c) (Z.to_nat (pos k')) = Some (f k')) ->
  holds (put c (pos k) v) (with_status nx ny nz a q s (fun k' => if tri_eqb k k' then v else f k')) q.
Proof.
  intros (A & B & C & D & E & F & G & I & J & LD) HK -> HF. right. unfold put; cbn.
  destruct (tri_spec q q); [|congruence].
  split; [reflexivity|]. do 9 (split; [assumption|]). split; [rewrite upd_length; assumption|].
  intros k' HK'. rewrite HK'. destruct (tri_spec q q); [|congruence].
  pose proof (pos_range k). pose proof (pos_range k').
  rewrite nth_error_upd, LD. destruct (tri_spec k k') as [->|N].
  - rewrite Nat.eqb_refl. destruct (Nat.ltb_spec (Z.to_nat (pos k')) (Z.to_nat (nx * ny * nz))); [reflexivity|lia].
  - destruct (Nat.eqb_spec (Z.to_nat (pos k)) (Z.to_nat (pos k'))) as [X|_]; [|auto].
    exfalso. apply N. apply pos_inj; [congruence|lia].
Qed.

Lemma whole_holds g a q v : holds (whole_chunk g (base q) v) (with_status nx ny nz a q FOUND_IN_CHUNK (fun _ => v)) q.
Proof.
  left. cbn. destruct (tri_spec q q); [|congruence]. split; [auto|]. split; [auto|]. split; [auto|].
  exists v. split; auto. intros k <-. destruct (tri_spec (chunk_of k) (chunk_of k)); [auto|congruence].
Qed.

Lemma new_cells_ok g a loc fill v :
  drefines g a -> (forall k, chunk_of k = chunk_of (cell_of loc) -> d_value nx ny nz a k = fill) ->
  exists g', new_cells maxn dbg g (base (chunk_of (cell_of loc))) (apply (inverse origin) loc) fill v = Ok (g', SET_CELL) /\
    drefines g' (fst (d_step origin cell nx ny nz a (DSetCell loc v))).
Proof.
  intros R F. unfold new_cells.
  destruct (cell_chunk_ok g a (chunk_of (cell_of loc)) fill R) as (c & -> & A & D). cbn [obind].
  rewrite chunk_set_cell_ok by auto. cbn [obind fst snd]. eexists; split; [reflexivity|]. cbn [d_step fst].
  apply set_refines; auto. apply (put_holds c a _ _ v _ (d_value nx ny nz a)); auto.
  intros k' HK. pose proof (pos_range k'). rewrite D, nth_error_repeat by lia. rewrite F; auto.
Qed.

Lemma chunk_value_ok (c : chunk T) w : ch_chunk_init c = true -> ch_data c = [w] -> chunk_value dbg c = Ok w.
Proof. intros C D. unfold chunk_value, data_at, cassert. rewrite C, D. cbn. rewrite andb_false_r. reflexivity. Qed.
Lemma chunk_set_value_ok (c : chunk T) w v : ch_chunk_init c = true -> ch_data c = [w] ->
  chunk_set_value dbg c v = Ok (put c 0 v).
Proof. intros C D. unfold chunk_set_value, data_set, put, cassert. rewrite C, D. cbn. rewrite andb_false_r. reflexivity. Qed.
Lemma whole_put_holds c a q w v : ch_cell_init c = false -> ch_chunk_init c = true -> ch_data c = [w] ->
  holds (put c 0 v) (with_status nx ny nz a q FOUND_IN_CHUNK (fun _ => v)) q.
Proof.
  intros B C D. left. unfold put; cbn. destruct (tri_spec q q); [|congruence]. split; [auto|]. split; [auto|]. split; [auto|].
  exists v. rewrite D. split; auto. intros k <-. destruct (tri_spec (chunk_of k) (chunk_of k)); [auto|congruence].
Qed.

Lemma dstep_refines g a o :
  drefines g a -> dop_ok origin cell nx ny nz o ->
  exists g', dstep maxn dbg g o = Ok (g', snd (d_step origin cell nx ny nz a o)) /\
    drefines g' (fst (d_step origin cell nx ny nz a o)).
Proof.
  intros R O. destruct o as [loc|loc v|loc v|loc v|v]; cbn [dop_ok] in O.
  - cbn [dstep d_step fst snd]. unfold dg_get, d_value. rewrite (region_ok g a loc R O). cbn [obind].
    pose proof (dr_chunks _ _ R (chunk_of (cell_of loc))) as H.
    destruct (a_find region_eqb (base (chunk_of (cell_of loc))) (dg_chunks g)) as [c|].
    + destruct H as [(A & B & C & w & D & E)|(A & B & C & D & E & F & G & I & J & L & M & N)].
      * rewrite B, C, A, (chunk_value_ok c w) by auto. cbn [obind fst snd].
        rewrite (E (cell_of loc)) by reflexivity. eauto.
      * assert (AD : addressed c (chunk_of (cell_of loc))) by (unfold addressed; auto 12).
        rewrite B, A. unfold grid_point. rewrite (dr_origin _ _ R), cell_position_ok by auto. cbn [obind].
        unfold data_at. rewrite N by reflexivity. cbn [obind fst snd]. eauto.
    + rewrite H. cbn [obind fst snd]. rewrite (dr_def _ _ R). eauto.
  - cbn [dstep d_step fst snd]. unfold dg_write. rewrite (region_ok g a loc R O). cbn [obind].
    pose proof (dr_chunks _ _ R (chunk_of (cell_of loc))) as H.
    destruct (a_find region_eqb (base (chunk_of (cell_of loc))) (dg_chunks g)) as [c|].
    + destruct H as [(A & B & C & w & D & E)|(A & B & C & D & E & F & G & I & J & L & M & N)].
      * rewrite B, C, A. rewrite (chunk_set_value_ok c w) by auto. cbn [obind fst snd].
        eexists; split; [reflexivity|]. apply set_refines; auto. apply (whole_put_holds c a _ w); auto.
      * assert (AD : addressed c (chunk_of (cell_of loc))) by (unfold addressed; auto 12).
        rewrite B, A. unfold grid_point. rewrite (dr_origin _ _ R), cell_position_ok by auto. cbn [obind].
        rewrite (data_set_ok c _ _ v AD). cbn [obind fst snd]. eexists; split; [reflexivity|].
        apply set_refines; auto. apply put_holds; auto.
    + rewrite H. cbn [obind fst snd]. eexists; split; [reflexivity|]. destruct R. constructor; cbn; auto.
  - cbn [dstep]. unfold dg_set_cell. rewrite (region_ok g a loc R O). cbn [obind].
    unfold grid_point. rewrite (dr_origin _ _ R).
    pose proof (dr_chunks _ _ R (chunk_of (cell_of loc))) as H.
    destruct (a_find region_eqb (base (chunk_of (cell_of loc))) (dg_chunks g)) as [c|].
    + destruct H as [(A & B & C & w & D & E)|(A & B & C & D & E & F & G & I & J & L & M & N)].
      * rewrite B, C, (chunk_value_ok c w) by auto. cbn [obind].
        destruct (new_cells_ok g a loc w v R) as (g' & -> & R').
        { intros k HK. unfold d_value. rewrite HK, A. auto. }
        cbn [obind fst snd]. eauto.
      * assert (AD : addressed c (chunk_of (cell_of loc))) by (unfold addressed; auto 12).
        rewrite B, chunk_set_cell_ok by auto. cbn [obind fst snd]. eexists; split; [reflexivity|]. cbn [d_step fst].
        apply set_refines; auto. apply (put_holds c a _ _ v _ (d_value nx ny nz a)); auto.
        intros k' HK. unfold d_value. rewrite HK, A. auto.
    + rewrite (dr_def _ _ R).
      destruct (new_cells_ok g a loc (d_default a) v R) as (g' & -> & R').
      { intros k HK. unfold d_value. rewrite HK, H. auto. }
      cbn [obind fst snd]. eauto.
  - cbn [dstep d_step fst snd]. unfold dg_set_chunk. rewrite (region_ok g a loc R O). cbn [obind].
    pose proof (dr_chunks _ _ R (chunk_of (cell_of loc))) as H.
    destruct (a_find region_eqb (base (chunk_of (cell_of loc))) (dg_chunks g)) as [c|].
    + destruct H as [(A & B & C & w & D & E)|(A & B & C & D & E & F & G & I & J & L & M & N)].
      * rewrite B, C. rewrite (chunk_set_value_ok c w) by auto. cbn [obind fst snd].
        eexists; split; [reflexivity|]. apply set_refines; auto. apply (whole_put_holds c a _ w); auto.
      * rewrite B. cbn [obind fst snd]. eexists; split; [reflexivity|]. apply set_refines; auto. apply whole_holds.
    + cbn [obind fst snd]. eexists; split; [reflexivity|]. apply set_refines; auto. apply whole_holds.
  - cbn. eexists; split; [reflexivity|]. destruct R. constructor; cbn; auto.
Qed.

Lemma get_refines g a loc : drefines g a -> loc_ok origin cell nx ny nz loc ->
  dg_get dbg g loc = Ok (d_value nx ny nz a (cell_of loc), d_status a (chunk_of (cell_of loc))).
Proof.
  intros R L. destruct (dstep_refines g a (DGet loc) R L) as (g1 & E & _). revert E. cbn [dstep].
  destruct (dg_get dbg g loc) as [[u s]| | | |]; cbn [obind fst snd d_step]; try discriminate. congruence.
Qed.
Lemma set_cell_refines g a loc v : drefines g a -> loc_ok origin cell nx ny nz loc ->
  exists g', dg_set_cell maxn dbg g loc v = Ok (g', SET_CELL) /\
    drefines g' (fst (d_step origin cell nx ny nz a (DSetCell loc v))).
Proof.
  intros R L. destruct (dstep_refines g a (DSetCell loc v) R L) as (g1 & E & R1). exists g1. split; auto. revert E. cbn [dstep].
  destruct (dg_set_cell maxn dbg g loc v) as [[u s]| | | |]; cbn [obind fst snd d_step]; try discriminate. congruence.
Qed.
Lemma set_chunk_refines g a loc v : drefines g a -> loc_ok origin cell nx ny nz loc ->
  exists g', dg_set_chunk dbg g loc v = Ok (g', SET_CHUNK) /\
    drefines g' (fst (d_step origin cell nx ny nz a (DSetChunk loc v))).
Proof.
  intros R L. destruct (dstep_refines g a (DSetChunk loc v) R L) as (g1 & E & R1). exists g1. split; auto. revert E. cbn [dstep].
  destruct (dg_set_chunk dbg g loc v) as [[u s]| | | |]; cbn [obind fst snd d_step]; try discriminate. congruence.
Qed.

Lemma drun_state os : forall g a, drefines g a -> Forall (dop_ok origin cell nx ny nz) os ->
  exists g' a' rs, drun maxn dbg g os = Ok (g', rs) /\ drefines g' a'.
Proof.
  induction os as [|o os IH]; intros g a R F; cbn [drun]; eauto 6.
  inversion F as [|? ? F1 F2]; subst.
  destruct (dstep_refines g a o R F1) as (g1 & E & R1). rewrite E. cbn [obind fst snd].
  destruct (IH _ _ R1 F2) as (g2 & a2 & rs & E2 & R2). rewrite E2. cbn [obind fst snd]. eauto 6.
Qed.

Lemma drun_refines os : forall g a, drefines g a -> Forall (dop_ok origin cell nx ny nz) os ->
  exists g', drun maxn dbg g os = Ok (g', d_run origin cell nx ny nz a os).
Proof.
  induction os as [|o os IH]; intros g a R F; cbn [drun d_run]; eauto.
  inversion F as [|? ? F1 F2]; subst.
  destruct (dstep_refines g a o R F1) as (g1 & E & R1). rewrite E. cbn [obind fst snd].
  destruct (IH _ _ R1 F2) as (g2 & E2). rewrite E2. cbn [obind fst snd]. eauto.
Qed.

Lemma make_refines d : drefines (dg_make origin cell nx ny nz d) (d_fresh d).
Proof. constructor; cbn; auto. Qed.
End S.
