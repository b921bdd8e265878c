(** Storage of the voxel grid refines the abstract map. *)
From Verif Require Import Base VoxelModel VoxelSpec.

Lemma ck_ok z : (int64_min <= z <= int64_max)%Z -> ck z = Ok z.
Proof. intros H. unfold ck. destruct (Z.leb_spec int64_min z), (Z.leb_spec z int64_max); simpl; auto; lia. Qed.

Section S.
Context {T : Type} (maxn nx ny nz : Z).
Hypothesis Hx : (0 < nx)%Z.
Hypothesis Hy : (0 < ny)%Z.
Hypothesis Hz : (0 < nz)%Z.
Hypothesis Hmax : (nx * ny * nz <= maxn)%Z.
Hypothesis H64 : (nx * ny * nz <= int64_max)%Z.

Lemma m1 : (0 < ny * nz)%Z. Proof. nia. Qed.
Lemma m2 : (ny * nz <= nx * ny * nz)%Z. Proof. nia. Qed.
Lemma m3 : (0 < nx * ny <= nx * ny * nz)%Z. Proof. nia. Qed.

Record refines (g : vgrid T) (a : agrid T) : Prop := {
  rf_nx : vg_nx g = nx;
  rf_ny : vg_ny g = ny;
  rf_nz : vg_nz g = nz;
  rf_s1 : vg_s1 g = (ny * nz)%Z;
  rf_s2 : vg_s2 g = nz;
  rf_len : length (vg_data g) = Z.to_nat (nx * ny * nz);
  rf_def : vg_default g = a_default a;
  rf_oob : vg_oob g = a_oob a;
  rf_cell : forall x y z, inside nx ny nz x y z = true ->
    nth_error (vg_data g) (Z.to_nat ((x * ny + y) * nz + z)) = Some (a_cell a x y z)
}.

Lemma inside_iff x y z : inside nx ny nz x y z = true <-> (0 <= x < nx /\ 0 <= y < ny /\ 0 <= z < nz)%Z.
Proof. unfold inside. lia. Qed.

Lemma in_bounds_inside g a x y z : refines g a -> index_in_bounds g x y z = inside nx ny nz x y z.
Proof. intros R. unfold index_in_bounds, inside. rewrite (rf_nx _ _ R), (rf_ny _ _ R), (rf_nz _ _ R). lia. Qed.

Lemma idx_range x y z : inside nx ny nz x y z = true -> (0 <= (x * ny + y) * nz + z < nx * ny * nz)%Z.
Proof.
  rewrite inside_iff. intros (A & B & C).
  assert (0 <= x * ny + y <= nx * ny - 1)%Z by nia.
  assert ((x * ny + y) * nz <= (nx * ny - 1) * nz)%Z by nia. nia.
Qed.

Lemma div_unique_pair q r q' r' n :
  (0 <= r < n -> 0 <= r' < n -> q * n + r = q' * n + r' -> q = q' /\ r = r')%Z.
Proof.
  intros A B E. assert (q = q').
  { destruct (Z.lt_trichotomy q q') as [L|[L|L]]; auto; exfalso; nia. }
  subst. lia.
Qed.

Lemma idx_inj x y z x' y' z' :
  inside nx ny nz x y z = true -> inside nx ny nz x' y' z' = true ->
  ((x * ny + y) * nz + z = (x' * ny + y') * nz + z')%Z -> x = x' /\ y = y' /\ z = z'.
Proof.
  rewrite !inside_iff. intros (A & B & C) (A' & B' & C') E.
  destruct (div_unique_pair _ _ _ _ _ C C' E) as (E1 & ->).
  destruct (div_unique_pair _ _ _ _ _ B B' E1) as (-> & ->). auto.
Qed.

Lemma data_index_ok g a x y z :
  refines g a -> inside nx ny nz x y z = true -> data_index g x y z = Ok ((x * ny + y) * nz + z)%Z.
Proof.
  intros R I. pose proof (idx_range _ _ _ I) as B. apply inside_iff in I. destruct I as (I1 & I2 & I3).
  unfold data_index. rewrite (rf_s1 _ _ R), (rf_s2 _ _ R).
  assert (0 <= x * (ny * nz) <= (x * ny + y) * nz + z)%Z by nia.
  assert (0 <= y * nz <= (x * ny + y) * nz + z)%Z by nia.
  unfold int64_max in *.
  rewrite ck_ok by (unfold int64_min, int64_max; lia). cbn [obind].
  rewrite ck_ok by (unfold int64_min, int64_max; lia). cbn [obind].
  rewrite ck_ok by (unfold int64_min, int64_max; lia). cbn [obind].
  rewrite ck_ok by (unfold int64_min, int64_max; lia). f_equal. ring.
Qed.

Lemma access_ok g a x y z :
  refines g a -> inside nx ny nz x y z = true ->
  access g ((x * ny + y) * nz + z) = Ok (Z.to_nat ((x * ny + y) * nz + z)).
Proof.
  intros R I. pose proof (idx_range _ _ _ I) as B. unfold access. rewrite (rf_len _ _ R).
  destruct (Z.leb_spec 0 ((x * ny + y) * nz + z)); [|lia].
  destruct (Z.ltb_spec ((x * ny + y) * nz + z) (Z.of_nat (Z.to_nat (nx * ny * nz)))); [reflexivity|lia].
Qed.

Lemma cell_count_ok g a : refines g a -> cell_count g = Ok (nx * ny * nz)%Z.
Proof.
  intros R. pose proof m3. unfold cell_count. rewrite (rf_nx _ _ R), (rf_ny _ _ R), (rf_nz _ _ R).
  unfold int64_max in *.
  rewrite ck_ok by (unfold int64_min, int64_max; lia). cbn [obind].
  apply ck_ok. unfold int64_min, int64_max; lia.
Qed.

Lemma fill_refines g a v :
  refines g a -> refines (set_data g (repeat v (Z.to_nat (nx * ny * nz)))) (with_all a v).
Proof.
  intros [E1 E2 E3 E4 E5 E6 E7 E8 E9]. constructor; simpl; auto.
  - apply repeat_length.
  - intros x y z I. apply idx_range in I. apply nth_error_repeat. lia.
Qed.

Lemma set_contents_ok g a v :
  refines g a -> set_contents maxn g v = Ok (set_data g (repeat v (Z.to_nat (nx * ny * nz)))).
Proof.
  intros R. unfold set_contents. rewrite (cell_count_ok _ _ R). cbn [obind].
  pose proof m3.
  destruct (Z.leb_spec 0 (nx * ny * nz)); [|lia]. destruct (Z.leb_spec (nx * ny * nz) maxn); [reflexivity|lia].
Qed.

Lemma write_refines g a x y z v :
  refines g a -> inside nx ny nz x y z = true ->
  refines (set_data g (upd (vg_data g) (Z.to_nat ((x * ny + y) * nz + z)) v)) (with_cell a x y z v).
Proof.
  intros [E1 E2 E3 E4 E5 E6 E7 E8 E9] I. constructor; simpl; auto.
  - rewrite upd_length. exact E6.
  - intros x' y' z' I'. pose proof (idx_range _ _ _ I). pose proof (idx_range _ _ _ I').
    rewrite nth_error_upd, E6.
    destruct (Nat.eqb_spec (Z.to_nat ((x * ny + y) * nz + z)) (Z.to_nat ((x' * ny + y') * nz + z'))) as [E|N].
    + destruct (idx_inj _ _ _ _ _ _ I I') as (-> & -> & ->); [lia|]. rewrite !Z.eqb_refl. cbn [andb].
      destruct (Nat.ltb_spec (Z.to_nat ((x' * ny + y') * nz + z')) (Z.to_nat (nx * ny * nz))); [reflexivity|lia].
    + rewrite (E9 _ _ _ I').
      destruct (Z.eqb_spec x x') as [->|]; auto. destruct (Z.eqb_spec y y') as [->|]; auto.
      destruct (Z.eqb_spec z z') as [->|]; auto. congruence.
Qed.

Lemma raw_refines g a l :
  refines g a -> Z.of_nat (length l) = (nx * ny * nz)%Z -> refines (set_data g l) (with_raw ny nz a l).
Proof.
  intros [E1 E2 E3 E4 E5 E6 E7 E8 E9] L. constructor; simpl; auto.
  - lia.
  - intros x y z I. apply idx_range in I. apply nth_error_nth'. lia.
Qed.

Lemma raw_ok g a : refines g a -> vg_data g = raw nx ny nz a.
Proof.
  intros R. apply nth_error_ext. intros i. unfold raw.
  destruct (Nat.ltb_spec i (Z.to_nat (nx * ny * nz))) as [H|H].
  - set (k := Z.of_nat i). assert (Hk : (0 <= k < nx * ny * nz)%Z) by lia.
    assert (I : inside nx ny nz (k / nz / ny) ((k / nz) mod ny) (k mod nz) = true).
    { apply inside_iff. split; [|split; apply Z.mod_pos_bound; lia].
      rewrite Z.div_div by lia. split; [apply Z.div_pos; nia|]. apply Z.div_lt_upper_bound; nia. }
    pose proof (rf_cell _ _ R _ _ _ I) as E.
    replace ((k / nz / ny * ny + (k / nz) mod ny) * nz + k mod nz)%Z with k in E.
    2:{ rewrite (Z.div_mod k nz) at 1 by lia. f_equal. rewrite (Z.div_mod (k / nz) ny) at 1 by lia. ring. }
    unfold k in E at 1. rewrite Nat2Z.id in E. rewrite E.
    rewrite nth_error_map, (nth_error_nth' _ 0) by (rewrite seq_length; lia).
    rewrite seq_nth by lia. reflexivity.
  - rewrite (proj2 (nth_error_None _ _)) by (rewrite (rf_len _ _ R); lia).
    symmetry. apply nth_error_None. rewrite map_length, seq_length. lia.
Qed.

Lemma step_refines g a o :
  refines g a ->
  exists g', step maxn g o = Ok (g', snd (a_step nx ny nz a o)) /\ refines g' (fst (a_step nx ny nz a o)).
Proof.
  intros R. destruct o as [x y z|x y z v|x y z v| |v|v|v|v| | |l|]; simpl.
  - unfold get, a_get. rewrite (in_bounds_inside _ _ _ _ _ R).
    destruct (inside nx ny nz x y z) eqn:I.
    + rewrite (data_index_ok _ _ _ _ _ R I). cbn [obind]. rewrite (access_ok _ _ _ _ _ R I). cbn [obind].
      unfold read_cell. rewrite (rf_cell _ _ R _ _ _ I). cbn [obind fst snd]. eauto.
    + cbn [obind fst snd]. rewrite (rf_oob _ _ R). eauto.
  - unfold set_value. rewrite (in_bounds_inside _ _ _ _ _ R). destruct (inside nx ny nz x y z) eqn:I.
    + rewrite (data_index_ok _ _ _ _ _ R I). cbn [obind]. rewrite (access_ok _ _ _ _ _ R I). cbn [obind fst snd].
      eexists; split; [reflexivity|]. apply write_refines; auto.
    + cbn [obind fst snd]. eauto.
  - unfold write_mutable. rewrite (in_bounds_inside _ _ _ _ _ R). destruct (inside nx ny nz x y z) eqn:I.
    + rewrite (data_index_ok _ _ _ _ _ R I). cbn [obind]. rewrite (access_ok _ _ _ _ _ R I). cbn [obind fst snd].
      eexists; split; [reflexivity|]. apply write_refines; auto.
    + cbn [obind fst snd]. eexists; split; [reflexivity|].
      destruct R. constructor; simpl; auto.
  - unfold reset_default. rewrite (set_contents_ok _ _ _ R). cbn [obind]. eexists; split; [reflexivity|].
    rewrite (rf_def _ _ R). apply fill_refines; auto.
  - unfold reset_new_value. rewrite (set_contents_ok _ _ _ R). cbn [obind]. eexists; split; [reflexivity|].
    apply fill_refines; auto.
  - assert (R' : refines (set_default g v) (with_default a v)) by (destruct R; constructor; simpl; auto).
    unfold reset_new_default. rewrite (set_contents_ok _ _ _ R'). cbn [obind]. eexists; split; [reflexivity|].
    apply fill_refines; auto.
  - eexists; split; [reflexivity|]. destruct R; constructor; simpl; auto.
  - eexists; split; [reflexivity|]. destruct R; constructor; simpl; auto.
  - rewrite (rf_def _ _ R). eauto.
  - rewrite (rf_oob _ _ R). eauto.
  - unfold set_raw. rewrite (cell_count_ok _ _ R). cbn [obind].
    destruct (Z.eqb_spec (Z.of_nat (length l)) (nx * ny * nz)) as [E|E].
    + cbn [obind fst snd]. eexists; split; [reflexivity|]. apply raw_refines; auto.
    + cbn [obind fst snd]. eauto.
  - rewrite (raw_ok _ _ R). eauto.
Qed.

Lemma run_refines os : forall g a, refines g a ->
  exists g', run maxn g os = Ok (g', a_run nx ny nz a os).
Proof.
  induction os as [|o os IH]; intros g a R; simpl; eauto.
  destruct (step_refines g a o R) as (g1 & E & R1). rewrite E. cbn [obind fst snd].
  destruct (IH _ _ R1) as (g2 & E2). rewrite E2. cbn [obind fst snd]. eauto.
Qed.

Lemma init_refines geo d o :
  exists g, initialize maxn true geo nx ny nz d o = Ok g /\ refines g (a_fresh d o).
Proof.
  pose proof m1. pose proof m2. unfold int64_max in *.
  unfold initialize. cbn [negb].
  destruct (Z.leb_spec nx 0); [lia|]. destruct (Z.leb_spec ny 0); [lia|]. destruct (Z.leb_spec nz 0); [lia|].
  cbn [orb]. rewrite ck_ok by (unfold int64_min, int64_max; lia). cbn [obind].
  unfold set_contents, cell_count. cbn [vg_nx vg_ny vg_nz]. pose proof m3.
  rewrite ck_ok by (unfold int64_min, int64_max; lia). cbn [obind].
  rewrite ck_ok by (unfold int64_min, int64_max; lia). cbn [obind].
  destruct (Z.leb_spec 0 (nx * ny * nz)); [|lia]. destruct (Z.leb_spec (nx * ny * nz) maxn); [|lia].
  cbn [andb]. eexists; split; [reflexivity|].
  constructor; simpl; auto.
  - apply repeat_length.
  - intros x y z I. apply idx_range in I. apply nth_error_repeat. lia.
Qed.
End S.
