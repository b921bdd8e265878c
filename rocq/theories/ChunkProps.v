(** C156: the chunks of the dynamic grid used by themselves. *)
From Verif Require Import Base VoxelModel VoxelProofs VoxelGeom VoxelGeomProofs VoxelFloat DynGridFloat VoxelMakeModel VoxelMakeProps ChunkModel ChunkFloat.
From Flocq Require Import IEEE754.Bits IEEE754.Binary Core Relative.
From Coq Require Import Reals Lra Psatz.
Local Instance P53 : Prec_gt_0 53 := eq_refl.
Local Instance VE : Valid_exp (SpecFloat.fexp 53 1024) := BinarySingleNaN.fexp_correct 53 1024 eq_refl.
Open Scope R_scope.

(** ** Vocabulary *)
Definition inside (n i : t3 Z) : Prop := (0 <= ax i < ax n /\ 0 <= ay i < ay n /\ 0 <= az i < az n)%Z.
(** A number that is not extreme. *)
Definition moderate (x : fl) : Prop := is_finite 53 1024 x = true /\ bpow radix2 (-900) <= val x <= bpow radix2 900.
Definition each2 {A C} (P : A -> C -> Prop) (s : t3 A) (t : t3 C) : Prop := P (ax s) (ax t) /\ P (ay s) (ay t) /\ P (az s) (az t).

Lemma ck_cases z : ck z = Ok z \/ ck z = UB.
Proof. unfold ck. destruct (_ && _); auto. Qed.

Section Chunk.
Context {T : Type}.
Variables (maxn : Z) (dbg : bool).
Variables (base c : t3 fl) (n : t3 Z) (v : T).

(** Chunks of cells: made by the constructor and changed by assignments through references and SetCellValue. *)
Inductive made : fchunk T -> Prop :=
| made_new k : make_cells maxn base c n v = Ok k -> made k
| made_index k k' i x r : made k -> assign_by_index dbg k i x = Ok (k', r) -> made k'
| made_cell k k' p x r : made k -> assign_cell dbg k p x = Ok (k', r) -> made k'
| made_set k k' p x r : made k -> set_cell_value dbg k p x = Ok (k', r) -> made k'.

(** Rejected exactly if a cell size is not a finite number above 0 or a count is below 1. *)
Theorem C156_rejects : make_cells maxn base c n v = Throw InvalidArgument <-> ~ (each usable c /\ each (fun k => (1 <= k)%Z) n).
Proof.
  rewrite <- check_counts_spec. unfold make_cells. destruct (check_counts c n); cbn [negb].
  - split; [|intros H; exfalso; auto]. destruct (ck_cases (ay n * az n)) as [->| ->]; cbn [obind]; [|discriminate].
    destruct (ck_cases (ax n * ay n)) as [->| ->]; cbn [obind]; [|discriminate]. destruct (ck_cases (ax n * ay n * az n)) as [->| ->]; cbn [obind]; [|discriminate].
    destruct Z.leb; discriminate.
  - split; auto.
Qed.

(** Made if the sizes are usable and there is room. *)
Theorem C156_makes : each usable c -> each (fun k => (1 <= k)%Z) n -> (product n <= maxn)%Z -> (maxn <= int64_max)%Z -> exists k, make_cells maxn base c n v = Ok k.
Proof.
  intros U N P M. unfold make_cells. rewrite (proj2 (check_counts_spec c n) (conj U N)). cbn [negb].
  destruct (product_ok nat 0%nat (fun x => x) 0%Z n N ltac:(lia)) as (E1 & E2). rewrite E1. cbn [obind]. destruct (ck (ax n * ay n)); cbn [obind] in *; try discriminate. rewrite E2. cbn [obind].
  rewrite (proj2 (Z.leb_le _ _) P). eexists. reflexivity.
Qed.

(** What stays the same in a chunk of cells. *)
Definition lin (i : t3 Z) : Z := (ax i * (ay n * az n) + ay i * az n + az i)%Z.
Definition shaped (k : fchunk T) : Prop :=
  k_base k = base /\ k_cell k = c /\ k_size k = zip3 (fun x j => b64_mult NE x (f_of_Z j)) c n /\ k_n k = n /\ k_s1 k = (ay n * az n)%Z /\ k_s2 k = az n /\
  k_chunk k = false /\ k_cells k = true /\ Z.of_nat (length (k_data k)) = product n /\ (product n <= int64_max)%Z /\ each (fun j => (1 <= j)%Z) n /\ each usable c.

Lemma product_pos : each (fun j => (1 <= j)%Z) n -> (1 <= product n)%Z.
Proof. intros (A & B & C). unfold product. nia. Qed.
Lemma new_shaped k : make_cells maxn base c n v = Ok k -> shaped k /\ k_data k = repeat v (Z.to_nat (product n)) /\ k_initial k = v.
Proof.
  unfold make_cells. destruct (check_counts c n) eqn:E; cbn [negb]; [|discriminate]. apply check_counts_spec in E. destruct E as (U & N).
  destruct (ck (ay n * az n)) eqn:E1; cbn [obind]; try discriminate. destruct (ck (ax n * ay n)) eqn:E2; cbn [obind]; try discriminate.
  destruct (ck (a0 * az n)) eqn:E3; cbn [obind]; try discriminate. destruct (a1 <=? maxn)%Z; try discriminate. intros H; injection H as <-.
  unfold ck in *. destruct (_ && _) in E1; try discriminate. injection E1 as <-. destruct (_ && _) in E2; try discriminate. injection E2 as <-.
  destruct (_ && _) eqn:E4 in E3; try discriminate. injection E3 as <-.
  pose proof (product_pos N) as P. unfold shaped, product in *. cbn [k_base k_cell k_size k_n k_s1 k_s2 k_chunk k_cells k_data k_initial]. rewrite repeat_length.
  rewrite abs3_id by auto. repeat split; try reflexivity; try apply N; try apply U; lia.
Qed.

Lemma lin_bounds i : inside n i -> (0 <= lin i < product n)%Z.
Proof.
  unfold inside, lin, product. intros (A & B & C). set (w := (ay n * az n)%Z).
  assert (Y : ((ay i + 1) * az n <= w)%Z) by (apply Z.mul_le_mono_nonneg_r; lia).
  assert (0 <= ay i * az n)%Z by (apply Z.mul_nonneg_nonneg; lia). assert (W : (0 <= w)%Z) by lia.
  assert (X : ((ax i + 1) * w <= ax n * w)%Z) by (apply Z.mul_le_mono_nonneg_r; lia).
  assert (0 <= ax i * w)%Z by (apply Z.mul_nonneg_nonneg; lia). replace (ax n * ay n * az n)%Z with (ax n * w)%Z by (unfold w; ring). lia.
Qed.
Lemma lin_inj i j : inside n i -> inside n j -> lin i = lin j -> i = j.
Proof.
  destruct i as [x y z], j as [x' y' z']. unfold inside, lin. cbn [ax ay az]. intros (A & B & C) (A' & B' & C') E.
  assert (E' : (az n * (ay n * x + y) + z = az n * (ay n * x' + y') + z')%Z) by nia.
  destruct (Z.div_mod_unique (az n) _ _ z z' (or_introl C) (or_introl C') E') as (D & ->).
  destruct (Z.div_mod_unique (ay n) _ _ y y' (or_introl B) (or_introl B') D) as (-> & ->). reflexivity.
Qed.
Lemma bounds_spec k i : shaped k -> k_in_bounds k i = true <-> inside n i.
Proof. intros S. destruct S as (_ & _ & _ & S & _). unfold k_in_bounds, inside. rewrite S, !andb_true_iff, !Z.leb_le, !Z.ltb_lt. tauto. Qed.
Lemma index_spec k i : shaped k -> inside n i -> k_index k i = Ok (lin i).
Proof.
  intros S I. destruct S as (_ & _ & _ & _ & S1 & S2 & _ & _ & _ & M & N & _). pose proof (lin_bounds i I) as L. destruct I as (A & B & C).
  unfold k_index. rewrite S1, S2. unfold lin in *. destruct N as (N1 & N2 & N3).
  assert (0 <= ay n * az n)%Z by (apply Z.mul_nonneg_nonneg; lia). assert (0 <= ax i * (ay n * az n))%Z by (apply Z.mul_nonneg_nonneg; lia).
  assert (0 <= ay i * az n)%Z by (apply Z.mul_nonneg_nonneg; lia). assert (int64_min <= 0)%Z by discriminate.
  rewrite ck_ok by lia. cbn [obind]. rewrite ck_ok by lia. cbn [obind]. rewrite ck_ok by lia. cbn [obind]. apply ck_ok. lia.
Qed.
Lemma by_index_in k i : shaped k -> inside n i -> by_index dbg k i = Ok (Some (lin i)).
Proof.
  intros S I. unfold by_index. rewrite (proj2 (bounds_spec k i S) I), (index_spec k i S I). pose proof (lin_bounds i I).
  destruct S as (_ & _ & _ & _ & _ & _ & _ & S & L & _). rewrite S, orb_true_r. cbn [obind]. unfold cassert, in_data. rewrite L.
  rewrite (proj2 (Z.leb_le 0 (lin i))), (proj2 (Z.ltb_lt (lin i) (product n))) by lia. cbn [negb andb]. rewrite andb_false_r. reflexivity.
Qed.
Lemma by_index_out k i : shaped k -> ~ inside n i -> by_index dbg k i = Ok None.
Proof.
  intros S I. unfold by_index. destruct (k_in_bounds k i) eqn:E; [apply (bounds_spec k i S) in E; contradiction|].
  destruct S as (_ & _ & _ & _ & _ & _ & _ & S & _). rewrite S, orb_true_r. unfold cassert. cbn [negb]. rewrite andb_false_r. reflexivity.
Qed.

(** Writing at a place. *)
Lemma put_ok k d x : (0 <= d < Z.of_nat (length (k_data k)))%Z -> exists k', k_put k d x = Ok k' /\ k_at k' d = Ok x /\
  (forall e, (0 <= e)%Z -> e <> d -> k_at k' e = k_at k e) /\ length (k_data k') = length (k_data k) /\ k_initial k' = k_initial k /\
  (shaped k -> shaped k').
Proof.
  intros D. unfold k_put. rewrite (proj2 (Z.ltb_ge d 0)), (proj2 (Z.leb_gt _ _)) by lia. cbn [orb]. eexists. split; [reflexivity|].
  set (m := Z.to_nat d) in *. assert (M : (m < length (k_data k))%nat) by lia.
  assert (LE : length (firstn m (k_data k) ++ x :: skipn (S m) (k_data k)) = length (k_data k)).
  { rewrite app_length, firstn_length. cbn [length]. rewrite skipn_length. lia. }
  unfold k_at. cbn [k_data k_initial]. fold m. rewrite (proj2 (Z.ltb_ge d 0)) by lia. split; [|split; [|split; [|split; [reflexivity|]]]].
  - rewrite nth_error_app2 by (rewrite firstn_length; lia). rewrite firstn_length. replace (m - Nat.min m (length (k_data k)))%nat with 0%nat by lia. reflexivity.
  - intros e E0 E. rewrite (proj2 (Z.ltb_ge e 0)) by lia. set (w := Z.to_nat e). assert (w <> m) by lia.
    replace (nth_error (firstn m (k_data k) ++ x :: skipn (S m) (k_data k)) w) with (nth_error (k_data k) w); [reflexivity|].
    destruct (Nat.lt_ge_cases w m) as [L|L].
    + rewrite nth_error_app1 by (rewrite firstn_length; lia). rewrite <- (firstn_skipn m (k_data k)) at 1. rewrite nth_error_app1 by (rewrite firstn_length; lia). reflexivity.
    + rewrite nth_error_app2 by (rewrite firstn_length; lia). rewrite firstn_length.
      replace (w - Nat.min m (length (k_data k)))%nat with (S (w - S m)) by lia. cbn [nth_error].
      rewrite <- (firstn_skipn (S m) (k_data k)) at 1. rewrite nth_error_app2 by (rewrite firstn_length; lia). rewrite firstn_length. f_equal. lia.
  - exact LE.
  - intros (S1 & S2 & S3 & S4 & S5 & S6 & S7 & S8 & S9 & S10 & S11 & S12).
    unfold shaped. cbn [k_base k_cell k_size k_n k_s1 k_s2 k_chunk k_cells k_data]. rewrite LE. tauto.
Qed.
Lemma set_initial_shaped k x : shaped k -> shaped (k_set_initial k x).
Proof. unfold shaped, k_set_initial. cbn [k_base k_cell k_size k_n k_s1 k_s2 k_chunk k_cells k_data]. tauto. Qed.
Lemma put_shaped k d x k' : shaped k -> k_put k d x = Ok k' -> shaped k'.
Proof.
  intros S E. assert (D : (0 <= d < Z.of_nat (length (k_data k)))%Z).
  { unfold k_put in E. destruct (_ || _) eqn:Q in E; try discriminate. apply orb_false_iff in Q. rewrite Z.ltb_ge, Z.leb_gt in Q. lia. }
  destruct (put_ok k d x D) as (k2 & E2 & _ & _ & _ & _ & H). rewrite E in E2. injection E2 as <-. auto.
Qed.
Lemma write_shaped k o x k' r : shaped k -> write_at k o x = Ok (k', r) -> shaped k'.
Proof.
  intros S. destruct o as [d|]; cbn [write_at].
  - destruct (k_put k d x) eqn:E; cbn [obind]; try discriminate. intros H; injection H as <- _. eapply put_shaped; eauto.
  - intros H; injection H as <- _. apply set_initial_shaped; auto.
Qed.
Lemma made_shaped k : made k -> shaped k.
Proof.
  induction 1 as [k E|k k' i x r _ S E|k k' p x r _ S E|k k' p x r _ S E].
  - apply new_shaped; auto.
  - unfold assign_by_index in E. destruct (by_index dbg k i); cbn [obind] in E; try discriminate. eapply write_shaped; eauto.
  - unfold assign_cell in E. destruct (by_location dbg k p); cbn [obind] in E; try discriminate. eapply write_shaped; eauto.
  - unfold set_cell_value in E. destruct (by_location dbg k p) as [[d|]| | | |]; cbn [obind] in E; try discriminate.
    + destruct (k_put k d x) eqn:E2; cbn [obind] in E; try discriminate. injection E as <- _. eapply put_shaped; eauto.
    + injection E as <- _. auto.
Qed.

(** ** By index *)
(** A new chunk has the initial value everywhere, and outside too, with false. *)
Theorem C156_new k i : make_cells maxn base c n v = Ok k ->
  (inside n i -> get_immutable_by_index dbg k i = Ok (v, true)) /\ (~ inside n i -> get_immutable_by_index dbg k i = Ok (v, false)).
Proof.
  intros E. destruct (new_shaped k E) as (S & D & I0). unfold get_immutable_by_index. split; intros I.
  - rewrite by_index_in by auto. cbn [obind read_at]. pose proof (lin_bounds i I) as L. unfold k_at. rewrite (proj2 (Z.ltb_ge _ 0)) by lia. rewrite D.
    replace (nth_error (repeat v (Z.to_nat (product n))) (Z.to_nat (lin i))) with (Some v); [reflexivity|].
    symmetry. rewrite nth_error_nth' with (d := v) by (rewrite repeat_length; lia). rewrite nth_repeat. reflexivity.
  - rewrite by_index_out by auto. cbn [obind read_at]. rewrite I0. reflexivity.
Qed.

Lemma read_in k i : shaped k -> inside n i -> exists x, k_at k (lin i) = Ok x /\ get_immutable_by_index dbg k i = Ok (x, true).
Proof.
  intros S I. unfold get_immutable_by_index. rewrite by_index_in by auto. cbn [obind read_at]. pose proof (lin_bounds i I) as L.
  destruct S as (_ & _ & _ & _ & _ & _ & _ & _ & D & _). unfold k_at. rewrite (proj2 (Z.ltb_ge _ 0)) by lia.
  destruct (nth_error (k_data k) (Z.to_nat (lin i))) as [x|] eqn:E; [exists x; auto|]. apply nth_error_None in E. lia.
Qed.
Lemma read_out k i : shaped k -> ~ inside n i -> get_immutable_by_index dbg k i = Ok (k_initial k, false).
Proof. intros S I. unfold get_immutable_by_index. rewrite by_index_out by auto. reflexivity. Qed.

(** A write in bounds says true and changes that cell only. *)
Theorem C156_write k i x : made k -> inside n i -> exists k', assign_by_index dbg k i x = Ok (k', true) /\ made k' /\
  get_immutable_by_index dbg k' i = Ok (x, true) /\ forall j, j <> i -> get_immutable_by_index dbg k' j = get_immutable_by_index dbg k j.
Proof.
  intros M I. pose proof (made_shaped k M) as S. pose proof (lin_bounds i I) as L. assert (D : Z.of_nat (length (k_data k)) = product n) by apply S.
  destruct (put_ok k (lin i) x ltac:(lia)) as (k' & E & H1 & H2 & _ & H4 & H5).
  assert (A : assign_by_index dbg k i x = Ok (k', true)).
  { unfold assign_by_index. rewrite by_index_in by auto. cbn [obind write_at]. rewrite E. reflexivity. }
  exists k'. split; [exact A|]. split; [eapply made_index; eauto|]. pose proof (H5 S) as S'. split.
  - unfold get_immutable_by_index. rewrite by_index_in by auto. cbn [obind read_at]. rewrite H1. reflexivity.
  - intros j J. destruct (Z_le_dec 0 (ax j)), (Z_lt_dec (ax j) (ax n)), (Z_le_dec 0 (ay j)), (Z_lt_dec (ay j) (ay n)), (Z_le_dec 0 (az j)), (Z_lt_dec (az j) (az n));
      try (assert (O : ~ inside n j) by (unfold inside; lia); rewrite !read_out by auto; rewrite H4; reflexivity).
    assert (O : inside n j) by (unfold inside; lia). unfold get_immutable_by_index. rewrite !by_index_in by auto. cbn [obind read_at].
    rewrite H2; [reflexivity|apply lin_bounds; auto|]. intros Q. apply J. apply lin_inj; auto.
Qed.

(** A write out of bounds says false and changes no cell - but it changes what every read out of bounds gives from then on. *)
Theorem C156_write_outside_partial k i x : made k -> ~ inside n i -> exists k', assign_by_index dbg k i x = Ok (k', false) /\ made k' /\
  (forall j, inside n j -> get_immutable_by_index dbg k' j = get_immutable_by_index dbg k j) /\
  (forall j, ~ inside n j -> get_immutable_by_index dbg k' j = Ok (x, false)).
Proof.
  intros M I. pose proof (made_shaped k M) as S.
  assert (A : assign_by_index dbg k i x = Ok (k_set_initial k x, false)).
  { unfold assign_by_index. rewrite by_index_out by auto. reflexivity. }
  pose proof (set_initial_shaped k x S) as S'. exists (k_set_initial k x). split; [exact A|]. split; [eapply made_index; eauto|]. split; intros j J.
  - unfold get_immutable_by_index. rewrite !by_index_in by auto. reflexivity.
  - rewrite read_out by auto. reflexivity.
Qed.

(** ** By location *)
(** The coordinate is in cell [i], up to rounding; below or above the chunk, up to rounding. *)
Definition near (p0 b0 c0 : fl) (i : Z) : Prop :=
  IZR i * (1 - bpow radix2 (-51)) <= (val p0 - val b0) / val c0 <= (IZR i + 1) * (1 + bpow radix2 (-51)).
Definition beyond (p0 b0 c0 : fl) (m : Z) : Prop := val p0 < val b0 \/ IZR m * (1 - bpow radix2 (-51)) <= (val p0 - val b0) / val c0.
Definition reasonable (x : fl) : Prop := is_finite 53 1024 x = true /\ Rabs (val x) <= bpow radix2 1022.

Lemma not_lt_inv x y : is_finite 53 1024 x = true -> is_finite 53 1024 y = true -> (f_lt x y = true <-> val x < val y).
Proof. intros FX FY. unfold f_lt, b64_compare. rewrite Bcompare_correct by auto. destruct (Rcompare_spec (val x) (val y)); split; intros; try discriminate; auto; lra. Qed.

Lemma axis_location p0 b0 c0 m : reasonable p0 -> reasonable b0 -> moderate c0 -> (1 <= m <= 2 ^ 45)%Z ->
  let l := b64_minus NE p0 b0 in
  (f_lt l f_zero = true /\ beyond p0 b0 c0 m) \/
  (f_lt l f_zero = false /\ f_lt (b64_mult NE c0 (f_of_Z m)) l = true /\ beyond p0 b0 c0 m) \/
  (f_lt l f_zero = false /\ f_lt (b64_mult NE c0 (f_of_Z m)) l = false /\ exists i, (0 <= i)%Z /\ f_to_int64 (b64_div NE l c0) = Ok i /\
     near p0 b0 c0 i /\ ((m <= i)%Z -> beyond p0 b0 c0 m)).
Proof.
  intros (FP & HP) (FB & HB) (FC & CL & CU) Hm. cbv zeta. rewrite <- (b_opaque (-900)) in CL. rewrite <- (b_opaque 900) in CU.
  rewrite <- (b_opaque 1022) in HP, HB. unfold near, beyond. rewrite <- (b_opaque (-51)). pose proof (b_pos (-900)) as P9.
  apply two_sided in HP. apply two_sided in HB.
  assert (B23 : b 1023 = 2 * b 1022). { change 2 with (bpow radix2 1). rewrite <- (b_opaque 1), <- b_add. reflexivity. }
  destruct (minus_rel p0 b0 FP FB) as (e3 & A3 & FL & BL); [apply Rabs_le; lra|].
  set (l := b64_minus NE p0 b0) in *. set (c1 := val c0) in *. set (d := val p0 - val b0) in *. set (u := b (-53)) in *.
  assert (u0 : 0 < u) by apply b_pos.
  assert (U4 : b (-51) = 4 * u). { unfold u. change 4 with (bpow radix2 2). rewrite <- (b_opaque 2), <- b_add. reflexivity. }
  assert (u1 : u <= / 256).
  { unfold u. apply Rle_trans with (b (-8)); [apply b_le; discriminate|]. rewrite (b_opaque (-8)). right. reflexivity. }
  apply two_sided in A3. rewrite U4.
  assert (C0 : 0 < c1) by lra. assert (Ci : 0 < / c1) by (apply Rinv_0_lt_compat; lra).
  assert (QE : val l / c1 = d / c1 * (1 + e3)) by (rewrite BL; unfold Rdiv; ring).
  destruct (f_lt l f_zero) eqn:EL.
  { left. split; auto. left. apply not_lt_inv in EL; auto. change (val f_zero) with 0 in EL. rewrite BL in EL. unfold d in EL. nra. }
  right. assert (L0 : 0 <= val l).
  { apply Rnot_lt_le. intros H. assert (f_lt l f_zero = true) by (apply not_lt_inv; auto; change (val f_zero) with 0; lra). congruence. }
  assert (D0 : 0 <= d) by (rewrite BL in L0; nra).
  destruct (of_Z_exact m ltac:(lia)) as (FN & BN). assert (M1 : 1 <= IZR m) by (apply IZR_le; lia).
  assert (M2 : IZR m <= b 45) by (rewrite b_45; apply IZR_le; lia).
  destruct (mult_rel c0 (f_of_Z m) FC FN) as (e5 & A5 & F5 & B5).
  { rewrite BN. fold c1. rewrite Rabs_pos_eq by nra. split.
    - apply Rle_trans with (b (-900)); [apply b_le; discriminate|]. nra.
    - apply Rle_trans with (b 900 * b 45); [|rewrite <- b_add; apply b_le; discriminate]. apply Rmult_le_compat; lra. }
  fold u in A5. apply two_sided in A5. rewrite BN in B5. fold c1 in B5.
  assert (DC : 0 <= d / c1) by (unfold Rdiv; nra).
  destruct (f_lt (b64_mult NE c0 (f_of_Z m)) l) eqn:ES.
  { left. repeat split; auto. right. apply not_lt_inv in ES; auto. rewrite B5, BL in ES.
    assert (Q : IZR m * (1 + e5) < d / c1 * (1 + e3)).
    { apply Rmult_lt_reg_r with c1; [lra|]. replace (d / c1 * (1 + e3) * c1) with (d * (1 + e3)) by (field; lra). lra. }
    assert (IZR m * (1 - u) < d / c1 * (1 + u)) by nra. nra. }
  right. split; auto. split; auto.
  assert (LS : val l <= c1 * IZR m * (1 + e5)).
  { rewrite <- B5. apply Rnot_lt_le. intros H. apply not_lt_inv in H; auto. congruence. }
  assert (Q0 : 0 <= val l / c1 <= 2 * b 45).
  { split; [unfold Rdiv; nra|]. apply Rmult_le_reg_r with c1; [lra|]. unfold Rdiv. rewrite Rmult_assoc, Rinv_l by lra. rewrite Rmult_1_r.
    eapply Rle_trans; [exact LS|]. assert (W1 : 0 <= c1 * IZR m <= c1 * b 45) by nra. assert (W2 : 1 + e5 <= 2) by lra. assert (W3 : 0 <= 1 + e5) by lra. nra. }
  (* the quotient *)
  assert (QT : exists t, is_finite 53 1024 (b64_div NE l c0) = true /\ val (b64_div NE l c0) = t /\ 0 <= t /\
             forall i, IZR i <= t < IZR i + 1 -> IZR i * (1 - u) <= val l / c1 /\ val l / c1 <= (IZR i + 1) * (1 + 2 * u)).
  { destruct (Rle_dec (b (-1022)) (val l / c1)) as [G|G].
    - destruct (div_rel l c0 FL) as (e4 & A4 & F6 & B6); [fold c1; lra| |].
      { fold c1. rewrite Rabs_pos_eq by lra. split; auto. apply Rle_trans with (b 46); [|apply b_le; discriminate].
        assert (b 46 = 2 * b 45). { change 2 with (bpow radix2 1). rewrite <- (b_opaque 1), <- b_add. reflexivity. } lra. }
      fold u in A4. apply two_sided in A4. fold c1 in B6. exists (val l / c1 * (1 + e4)). split; auto. split; auto. split; [nra|].
      intros i (I1 & I2). set (w := val l / c1) in *. split.
      + assert (V1 : IZR i <= w * (1 + u)) by nra. assert (V2 : IZR i * (1 - u) <= w * (1 + u) * (1 - u)) by (apply Rmult_le_compat_r; lra).
        assert (0 <= w * (u * u)) by (apply Rmult_le_pos; nra). nra.
      + assert (V1 : w * (1 - u) <= IZR i + 1) by nra. assert (V2 : w * (1 - u) * (1 + 2 * u) <= (IZR i + 1) * (1 + 2 * u)) by (apply Rmult_le_compat_r; lra).
        assert (0 <= w * (u - 2 * u * u)) by (apply Rmult_le_pos; nra). nra.
    - apply Rnot_le_lt in G.
      pose proof (Bdiv_correct 53 1024 eq_refl eq_refl binop_nan_pl64 NE l c0 ltac:(fold c1; lra)) as H.
      change (BinarySingleNaN.round_mode NE) with ZnearestE in H. fold c1 in H.
      assert (R0 : 0 <= rndN (val l / c1)) by (apply round_ge_generic; [exact VE|apply valid_rnd_N|apply generic_format_0|lra]).
      assert (R1 : rndN (val l / c1) <= / 2).
      { apply round_le_generic; [exact VE|apply valid_rnd_N| |].
        - change (/ 2) with (bpow radix2 (-1)). apply generic_format_bpow. vm_compute. discriminate.
        - apply Rle_trans with (b (-1)); [|rewrite (b_opaque (-1)); right; reflexivity]. apply Rle_trans with (b (-1022)); [lra|apply b_le; discriminate]. }
      rewrite Rlt_bool_true in H.
      2:{ rewrite Rabs_pos_eq by lra. apply Rle_lt_trans with (b 0); [rewrite b_0; lra|]. rewrite <- (b_opaque 1024). apply b_lt. reflexivity. }
      destruct H as (H1 & H2 & _). rewrite FL in H2. exists (rndN (val l / c1)). split; [exact H2|]. split; [exact H1|]. split; [exact R0|].
      intros i (I1 & I2). assert (i = 0)%Z.
      { assert (IZR i < 1) by lra. assert (-1 < IZR i) by lra. apply lt_IZR in H. apply lt_IZR in H0. lia. }
      subst i. split; [lra|]. assert (b (-1022) <= 1) by (rewrite <- b_0; apply b_le; discriminate). lra. }
  destruct QT as (t & F6 & B6 & T0 & HT). exists (Zfloor t). pose proof (Zfloor_lb t) as ZL. pose proof (Zfloor_ub t) as ZU.
  assert (I0 : (0 <= Zfloor t)%Z) by (apply Zfloor_lub; exact T0).
  destruct (HT (Zfloor t) (conj ZL ZU)) as (Q1 & Q2).
  set (i := Zfloor t) in *. assert (IR : 0 <= IZR i) by (apply IZR_le; exact I0). rewrite QE in Q1, Q2.
  set (y := d / c1) in *.
  assert (X1 : IZR i * (1 - 4 * u) <= y).
  { apply Rmult_le_reg_r with (1 + u); [lra|]. apply Rle_trans with (IZR i * (1 - u)).
    - rewrite Rmult_assoc. apply Rmult_le_compat_l; nra.
    - apply Rle_trans with (y * (1 + e3)); [exact Q1|]. apply Rmult_le_compat_l; lra. }
  assert (X2 : y <= (IZR i + 1) * (1 + 4 * u)).
  { apply Rmult_le_reg_r with (1 - u); [lra|]. apply Rle_trans with ((IZR i + 1) * (1 + 2 * u)).
    - apply Rle_trans with (y * (1 + e3)); [|exact Q2]. apply Rmult_le_compat_l; lra.
    - rewrite Rmult_assoc. apply Rmult_le_compat_l; nra. }
  split; auto. split; [|split; [auto|]].
  - unfold f_to_int64. rewrite F6.
    assert (TT : Btrunc 53 1024 (b64_div NE l c0) = i).
    { apply eq_IZR. rewrite Btrunc_correct by reflexivity. rewrite round_FIX_IZR, B6. f_equal. apply trunc_pos; [lia|split; auto]. }
    rewrite TT. apply ck_ok. unfold int64_min, int64_max. split; [lia|]. apply le_IZR.
    assert (KQ : IZR i * (1 - u) <= 2 * b 45) by (rewrite QE in Q0; lra). apply Rle_trans with (4 * b 45); [nra|].
    rewrite b_45, <- mult_IZR. apply IZR_le. discriminate.
  - intros G. right. assert (IZR m <= IZR i) by (apply IZR_le; lia). nra.
Qed.

(** A lookup by location addresses the cell that contains the location (up to rounding), or none if it is outside (up to rounding). *)
Theorem C156_location k p : made k -> each reasonable p -> each reasonable base -> each moderate c -> each (fun m => (m <= 2 ^ 45)%Z) n ->
  (exists i, inside n i /\ near (ax p) (ax base) (ax c) (ax i) /\ near (ay p) (ay base) (ay c) (ay i) /\ near (az p) (az base) (az c) (az i) /\
     get_cell_immutable dbg k p = get_immutable_by_index dbg k i /\
     forall x, assign_cell dbg k p x = assign_by_index dbg k i x /\ set_cell_value dbg k p x = assign_by_index dbg k i x) \/
  ((beyond (ax p) (ax base) (ax c) (ax n) \/ beyond (ay p) (ay base) (ay c) (ay n) \/ beyond (az p) (az base) (az c) (az n)) /\
   (forall j, ~ inside n j -> get_cell_immutable dbg k p = get_immutable_by_index dbg k j /\ forall x, assign_cell dbg k p x = assign_by_index dbg k j x) /\
   forall x, set_cell_value dbg k p x = Ok (k, false)).
Proof.
  intros M (P1 & P2 & P3) (B1 & B2 & B3) (C1 & C2 & C3) (N1 & N2 & N3). pose proof (made_shaped k M) as S.
  assert (N : each (fun j => (1 <= j)%Z) n) by apply S. destruct N as (O1 & O2 & O3).
  pose proof (axis_location _ _ _ (ax n) P1 B1 C1 (conj O1 N1)) as X. pose proof (axis_location _ _ _ (ay n) P2 B2 C2 (conj O2 N2)) as Y.
  pose proof (axis_location _ _ _ (az n) P3 B3 C3 (conj O3 N3)) as Z. cbv zeta in X, Y, Z.
  assert (NONE : k_location k p = Ok None -> by_location dbg k p = Ok None).
  { intros E. unfold by_location. rewrite E. assert (CC : k_cells k = true) by apply S. rewrite CC. unfold cassert. cbn [negb obind]. rewrite andb_false_r. reflexivity. }
  assert (OUT : k_location k p = Ok None -> (forall j, ~ inside n j -> get_cell_immutable dbg k p = get_immutable_by_index dbg k j /\ forall x, assign_cell dbg k p x = assign_by_index dbg k j x) /\
     forall x, set_cell_value dbg k p x = Ok (k, false)).
  { intros E. apply NONE in E. unfold get_cell_immutable, assign_cell, set_cell_value, get_immutable_by_index, assign_by_index. rewrite E. split; [|reflexivity].
    intros j J. rewrite by_index_out by auto. auto. }
  assert (KL : k_location k p = if f_lt (b64_minus NE (ax p) (ax base)) f_zero || f_lt (b64_minus NE (ay p) (ay base)) f_zero || f_lt (b64_minus NE (az p) (az base)) f_zero then Ok None
    else if f_lt (b64_mult NE (ax c) (f_of_Z (ax n))) (b64_minus NE (ax p) (ax base)) || f_lt (b64_mult NE (ay c) (f_of_Z (ay n))) (b64_minus NE (ay p) (ay base)) || f_lt (b64_mult NE (az c) (f_of_Z (az n))) (b64_minus NE (az p) (az base)) then Ok None
    else let! x := f_to_int64 (b64_div NE (b64_minus NE (ax p) (ax base)) (ax c)) in let! y := f_to_int64 (b64_div NE (b64_minus NE (ay p) (ay base)) (ay c)) in
         let! z := f_to_int64 (b64_div NE (b64_minus NE (az p) (az base)) (az c)) in
         if k_in_bounds k (T3 x y z) then let! d := k_index k (T3 x y z) in Ok (if (d <? 0)%Z then None else Some d) else Ok None).
  { destruct S as (E1 & E2 & E3 & _). unfold k_location. rewrite E1, E2, E3. reflexivity. }
  destruct X as [(X1 & X)|X]; [right; split; [auto|apply OUT; rewrite KL, X1; reflexivity]|].
  destruct Y as [(Y1 & Y)|Y]; [right; split; [auto|apply OUT; rewrite KL, Y1, orb_true_r; reflexivity]|].
  destruct Z as [(Z1 & Z)|Z]; [right; split; [auto|apply OUT; rewrite KL, Z1, orb_true_r; reflexivity]|].
  assert (X0 : f_lt (b64_minus NE (ax p) (ax base)) f_zero = false) by tauto. assert (Y0 : f_lt (b64_minus NE (ay p) (ay base)) f_zero = false) by tauto.
  assert (Z0 : f_lt (b64_minus NE (az p) (az base)) f_zero = false) by tauto. rewrite X0, Y0, Z0 in KL. cbn [orb] in KL.
  destruct X as [(_ & X1 & X)|(_ & X1 & ix & I1 & X2 & X3 & X4)]; [right; split; [auto|apply OUT; rewrite KL, X1; reflexivity]|].
  destruct Y as [(_ & Y1 & Y)|(_ & Y1 & iy & I2 & Y2 & Y3 & Y4)]; [right; split; [auto|apply OUT; rewrite KL, Y1, orb_true_r; reflexivity]|].
  destruct Z as [(_ & Z1 & Z)|(_ & Z1 & iz & I3 & Z2 & Z3 & Z4)]; [right; split; [auto|apply OUT; rewrite KL, Z1, orb_true_r; reflexivity]|].
  rewrite X1, Y1, Z1, X2, Y2, Z2 in KL. cbn [orb obind] in KL.
  destruct (k_in_bounds k (T3 ix iy iz)) eqn:IB.
  - left. apply (bounds_spec k _ S) in IB. exists (T3 ix iy iz). split; auto. split; auto. split; auto. split; auto.
    rewrite (index_spec k _ S IB) in KL. pose proof (lin_bounds _ IB) as L. cbn [obind] in KL. rewrite (proj2 (Z.ltb_ge _ 0)) in KL by lia.
    assert (BL : by_location dbg k p = Ok (Some (lin (T3 ix iy iz)))).
    { unfold by_location. rewrite KL. destruct S as (_ & _ & _ & _ & _ & _ & _ & CC & D & _). rewrite CC. cbn [obind]. unfold cassert. cbn [negb]. rewrite andb_false_r, D.
      rewrite (proj2 (Z.ltb_lt _ _)) by lia. cbn [negb]. rewrite andb_false_r. reflexivity. }
    unfold get_cell_immutable, assign_cell, set_cell_value, get_immutable_by_index, assign_by_index. rewrite BL, by_index_in by auto. auto.
  - right. split; [|apply OUT; exact KL].
    assert (~ inside n (T3 ix iy iz)). { intros I. apply (bounds_spec k _ S) in I. congruence. }
    unfold inside in H. cbn [ax ay az] in H. destruct (Z_le_dec (ax n) ix), (Z_le_dec (ay n) iy), (Z_le_dec (az n) iz); auto. exfalso. apply H. lia.
Qed.

(** ** From an index to a location and back *)
Definition close_to (q b0 c0 : fl) (i : Z) : Prop :=
  is_finite 53 1024 q = true /\ Rabs (val q - (val b0 + val c0 * (IZR i + / 2))) <= bpow radix2 (-52) * (Rabs (val b0) + val c0 * (IZR i + 1)).
(** Not farther from the origin than 2^45 cells. *)
Definition in_reach (b0 c0 : fl) : Prop := is_finite 53 1024 b0 = true /\ Rabs (val b0) <= bpow radix2 45 * val c0.

(** The location of an index is the centre of the cell (up to rounding), and looking it up gives the cell of the index. *)
Theorem C156_centre k i : made k -> each moderate c -> each2 in_reach base c -> each (fun m => (m <= 2 ^ 45)%Z) n -> inside n i ->
  exists q, index_location dbg k i = Ok (Some q) /\
    close_to (ax q) (ax base) (ax c) (ax i) /\ close_to (ay q) (ay base) (ay c) (ay i) /\ close_to (az q) (az base) (az c) (az i) /\
    get_cell_immutable dbg k q = get_immutable_by_index dbg k i /\
    forall x, assign_cell dbg k q x = assign_by_index dbg k i x /\ set_cell_value dbg k q x = assign_by_index dbg k i x.
Proof.
  intros M ((FX & CX) & (FY & CY) & (FZ & CZ)) ((GX & BX) & (GY & BY) & (GZ & BZ)) (N1 & N2 & N3) I. pose proof (made_shaped k M) as S.
  rewrite <- (b_opaque (-900)), <- (b_opaque 900) in CX, CY, CZ. rewrite <- (b_opaque 45) in BX, BY, BZ.
  assert (I' := I). destruct I' as (I1 & I2 & I3).
  pose proof (centre_axis _ _ (ax n) (ax i) GX FX CX BX I1 N1) as X. pose proof (centre_axis _ _ (ay n) (ay i) GY FY CY BY I2 N2) as Y.
  pose proof (centre_axis _ _ (az n) (az i) GZ FZ CZ BZ I3 N3) as Z. cbv zeta in X, Y, Z.
  destruct X as (X1 & X2 & X3 & X4 & X5), Y as (Y1 & Y2 & Y3 & Y4 & Y5), Z as (Z1 & Z2 & Z3 & Z4 & Z5).
  set (q := T3 (axis_centre (ax base) (ax c) (ax i)) (axis_centre (ay base) (ay c) (ay i)) (axis_centre (az base) (az c) (az i))).
  exists q. split.
  { unfold index_location. rewrite (proj2 (bounds_spec k i S) I). destruct S as (E1 & E2 & _ & _ & _ & _ & E7 & E8 & _). rewrite E1, E2, E7, E8.
    unfold cassert. cbn [orb negb]. rewrite andb_false_r. reflexivity. }
  split; [split; auto|]. split; [split; auto|]. split; [split; auto|].
  assert (KL : k_location k q = Ok (Some (lin i))).
  { pose proof (lin_bounds i I) as L. pose proof (proj2 (bounds_spec k i S) I) as IB. pose proof (index_spec k i S I) as IX.
    destruct S as (E1 & E2 & E3 & _). unfold k_location. rewrite E1, E2, E3. unfold q, zip3, binary64. cbn [ax ay az].
    rewrite X3, Y3, Z3, X4, Y4, Z4, X5, Y5, Z5. cbn [orb obind]. destruct i as [i1 i2 i3]. cbn [ax ay az] in *. rewrite IB, IX. cbn [obind].
    rewrite (proj2 (Z.ltb_ge _ 0)) by lia. reflexivity. }
  assert (BL : by_location dbg k q = Ok (Some (lin i))).
  { unfold by_location. rewrite KL. pose proof (lin_bounds i I). destruct S as (_ & _ & _ & _ & _ & _ & _ & CC & D & _). rewrite CC. cbn [obind]. unfold cassert. cbn [negb]. rewrite andb_false_r, D.
    rewrite (proj2 (Z.ltb_lt _ _)) by lia. cbn [negb]. rewrite andb_false_r. reflexivity. }
  unfold get_cell_immutable, assign_cell, set_cell_value, get_immutable_by_index, assign_by_index. rewrite BL, by_index_in by auto. auto.
Qed.
Theorem C156_no_location k i : made k -> ~ inside n i -> index_location dbg k i = Ok None.
Proof.
  intros M I. pose proof (made_shaped k M) as S. unfold index_location. destruct (k_in_bounds k i) eqn:E; [apply (bounds_spec k i S) in E; contradiction|].
  destruct S as (_ & _ & _ & _ & _ & _ & _ & S & _). rewrite S, orb_true_r. unfold cassert. cbn [negb]. rewrite andb_false_r. reflexivity.
Qed.
Theorem C156_cell_size k : made k -> element_size dbg k = Ok c.
Proof.
  intros M. pose proof (made_shaped k M) as S. destruct S as (_ & S1 & _ & _ & _ & _ & S2 & S3 & _). unfold element_size. rewrite S1, S2, S3. unfold cassert.
  cbn [orb negb]. rewrite andb_false_r. reflexivity.
Qed.
End Chunk.

(** ** Chunks of one value *)
Theorem C156_whole (T : Type) dbg base s (v : T) :
  (make_whole base s v = Throw InvalidArgument <-> ~ each usable s) /\
  forall k, make_whole base s v = Ok k ->
    get_chunk dbg k = Ok v /\ element_size dbg k = Ok s /\
    (forall i, inside (T3 1 1 1)%Z i -> get_immutable_by_index dbg k i = Ok (v, true)) /\
    (forall i, ~ inside (T3 1 1 1)%Z i -> get_immutable_by_index dbg k i = Ok (v, false)) /\
    (forall x, exists k', set_chunk dbg k x = Ok k' /\ get_chunk dbg k' = Ok x) /\
    index_location dbg k (T3 0 0 0)%Z = Ok (Some (T3 (b64_plus NE (ax base) (b64_mult NE (ax s) f_half)) (b64_plus NE (ay base) (b64_mult NE (ay s) f_half))
                                               (b64_plus NE (az base) (b64_mult NE (az s) f_half)))).
Proof.
  unfold make_whole. destruct (all3 (map3 checked s)) eqn:E; cbn [negb].
  - rewrite (all3_each _ _ _ checked_usable) in E. split; [split; [discriminate|intros H; contradiction]|]. intros k H; injection H as <-. rewrite abs3_id by auto.
    repeat split; try (destruct dbg; reflexivity).
    + intros i I. assert (i = T3 0 0 0)%Z as ->. { destruct i as [x y z]. unfold inside in I. cbn [ax ay az] in I. f_equal; lia. } destruct dbg; reflexivity.
    + intros i I. unfold get_immutable_by_index, by_index. cbn [k_chunk k_cells orb]. unfold cassert. cbn [negb]. rewrite andb_false_r.
      match goal with |- context [k_in_bounds ?k i] => destruct (k_in_bounds k i) eqn:B end; [|reflexivity].
      exfalso. apply I. unfold k_in_bounds in B. cbn [k_n ax ay az] in B. rewrite !andb_true_iff, !Z.leb_le, !Z.ltb_lt in B. unfold inside. cbn [ax ay az]. lia.
    + intros x. destruct dbg; eexists; split; reflexivity.
  - split; [split; [|reflexivity]|discriminate]. intros _ H. apply (all3_each _ _ _ checked_usable) in H. congruence.
Qed.

(** With assertions, asking a chunk of cells for its one value, or a chunk of one value for a cell, stops the program.  Without them the first
    answers with the first cell. *)
Theorem C156_kind (T : Type) maxn base c n (v : T) : (forall k dbg, made maxn dbg base c n v k ->
    (forall x, get_chunk true k = AssertFail /\ set_chunk true k x = AssertFail) /\
    exists x, get_chunk false k = Ok x /\ get_immutable_by_index dbg k (T3 0 0 0)%Z = Ok (x, true)) /\
  (forall s k p x, make_whole base s v = Ok k -> get_cell_immutable true k p = AssertFail /\ set_cell_value true k p x = AssertFail /\ assign_cell true k p x = AssertFail).
Proof.
  split.
  - intros k dbg M. pose proof (made_shaped _ _ _ _ _ _ k M) as S. assert (I : inside n (T3 0 0 0)%Z).
    { assert (N : each (fun j => (1 <= j)%Z) n) by apply S. destruct N as (N1 & N2 & N3). unfold inside. cbn [ax ay az]. lia. }
    destruct (read_in dbg base c n k _ S I) as (x & E1 & E2). assert (C : k_chunk k = false) by apply S. split.
    + intros y. unfold get_chunk, set_chunk. rewrite C. split; reflexivity.
    + exists x. split; [|exact E2]. unfold get_chunk, cassert. cbn [andb]. unfold lin in E1. cbn [ax ay az] in E1. exact E1.
  - intros s k p x E. unfold make_whole in E. destruct (negb _) in E; try discriminate. injection E as <-. repeat split; reflexivity.
Qed.

(** A chunk made without arguments belongs to no kind: with assertions every access stops the program.  Without them nothing is found by index, its one
    value is not there to be read, and its corner, of all locations, divides zero by zero. *)
Theorem C156_blank (T : Type) (v : T) : let k := make_blank v in
  (forall i p x, get_immutable_by_index true k i = AssertFail /\ assign_by_index true k i x = AssertFail /\ get_cell_immutable true k p = AssertFail /\
     assign_cell true k p x = AssertFail /\ set_cell_value true k p x = AssertFail /\ get_chunk true k = AssertFail /\ set_chunk true k x = AssertFail /\
     index_location true k i = AssertFail /\ element_size true k = AssertFail) /\
  (forall i, get_immutable_by_index false k i = Ok (v, false) /\ index_location false k i = Ok None) /\
  (forall x, get_chunk false k = UB /\ set_chunk false k x = UB) /\
  (forall x, get_cell_immutable false k (T3 f_zero f_zero f_zero) = UB /\ set_cell_value false k (T3 f_zero f_zero f_zero) x = UB).
Proof.
  cbv zeta. split; [intros i p x; repeat split; reflexivity|]. split; [|split; [intros x; split; reflexivity|]].
  - intros i. assert (B : k_in_bounds (make_blank v) i = false).
    { unfold k_in_bounds. cbn [make_blank k_n ax ay az]. destruct (Z.leb_spec 0 (ax i)); cbn [andb]; [|reflexivity].
      rewrite (proj2 (Z.ltb_ge (ax i) 0)) by lia. rewrite !andb_false_r. reflexivity. }
    unfold get_immutable_by_index, by_index, index_location. rewrite B. split; reflexivity.
  - intros x. split; vm_compute; reflexivity.
Qed.

(** ** Findings *)
(** A failed lookup can change the chunk: GetMutableByIndex gives a reference to the value of all failed lookups. *)
Theorem C156_write_outside_refuted : exists (k k' : fchunk nat) i j, make_cells 100 (T3 f_zero f_zero f_zero) (T3 f_one f_one f_one) (T3 2 2 2)%Z 0%nat = Ok k /\
  assign_by_index true k i 7%nat = Ok (k', false) /\ get_immutable_by_index true k j = Ok (0%nat, false) /\ get_immutable_by_index true k' j = Ok (7%nat, false).
Proof.
  assert (N : match make_cells 100 (T3 f_zero f_zero f_zero) (T3 f_one f_one f_one) (T3 2 2 2)%Z 0%nat with Ok _ => True | _ => False end) by (vm_compute; exact Logic.I).
  destruct (make_cells 100 (T3 f_zero f_zero f_zero) (T3 f_one f_one f_one) (T3 2 2 2)%Z 0%nat) as [k| | | |] eqn:E; try contradiction. clear N.
  assert (M : made 100 true (T3 f_zero f_zero f_zero) (T3 f_one f_one f_one) (T3 2 2 2)%Z 0%nat k) by (apply made_new; auto).
  assert (O1 : ~ inside (T3 2 2 2)%Z (T3 2 0 0)%Z) by (unfold inside; cbn [ax ay az]; lia).
  assert (O2 : ~ inside (T3 2 2 2)%Z (T3 0 0 (-1))%Z) by (unfold inside; cbn [ax ay az]; lia).
  destruct (C156_write_outside_partial 100 true _ _ _ _ k (T3 2 0 0)%Z 7%nat M O1) as (k' & A & _ & _ & C). exists k, k', (T3 2 0 0)%Z, (T3 0 0 (-1))%Z.
  split; auto. split; auto. split; [apply (C156_new 100 true _ _ _ _ k (T3 0 0 (-1))%Z E); exact O2|apply C; exact O2].
Qed.

(** Far away from the origin the location of an index is found in another cell: cells of size 1 behind 2^53. *)
Definition b64_far : fl := f_of_Z (2 ^ 53).
Theorem C156_far_refuted : exists base c n i, inside n i /\ each moderate c /\
  match make_cells 100 base c n 0%nat with
  | Ok k => match assign_by_index true k i 7%nat, index_location true k i with
            | Ok (k', _), Ok (Some q) => get_immutable_by_index true k' i = Ok (7%nat, true) /\ get_cell_immutable true k' q = Ok (0%nat, true)
            | _, _ => False
            end
  | _ => False
  end.
Proof.
  exists (T3 b64_far f_zero f_zero), (T3 f_one f_one f_one), (T3 4 1 1)%Z, (T3 1 0 0)%Z. split; [unfold inside; cbn [ax ay az]; lia|]. split.
  - assert (moderate f_one). { split; [reflexivity|]. replace (val f_one) with 1. split; [apply (bpow_le radix2 (-900) 0)|apply (bpow_le radix2 0 900)]; discriminate.
      symmetry. apply (proj2 (of_Z_exact 1 ltac:(lia))). }
    repeat split; apply H.
  - vm_compute. split; reflexivity.
Qed.

(** A location that is not a number is undefined behaviour, not a failed lookup. *)
Definition b64_nan : fl := B754_nan 53 1024 false 1%positive eq_refl.
Theorem C156_nan_refuted : exists base c n p, each moderate c /\ forall dbg,
  match make_cells 100 base c n 0%nat with Ok k => get_cell_immutable dbg k p = UB /\ set_cell_value dbg k p 1%nat = UB | _ => False end.
Proof.
  exists (T3 f_zero f_zero f_zero), (T3 f_one f_one f_one), (T3 4 4 4)%Z, (T3 b64_nan f_zero f_zero). split.
  - assert (moderate f_one). { split; [reflexivity|]. replace (val f_one) with 1. split; [apply (bpow_le radix2 (-900) 0)|apply (bpow_le radix2 0 900)]; discriminate.
      symmetry. apply (proj2 (of_Z_exact 1 ltac:(lia))). }
    repeat split; apply H.
  - intros []; vm_compute; split; reflexivity.
Qed.

(** ** Cases *)
Definition c_tenth : t3 fl := T3 f_0_1 f_0_1 f_0_1.
Definition c_base : t3 fl := T3 f_zero f_3_4 f_one.
Example C156_case : match make_cells 1000 c_base c_tenth (T3 3 4 5)%Z 0%nat with
  | Ok k => match assign_by_index true k (T3 2 3 4)%Z 9%nat, index_location true k (T3 2 3 4)%Z with
            | Ok (k', r), Ok (Some q) => r = true /\ get_cell_immutable true k' q = Ok (9%nat, true) /\ get_immutable_by_index true k' (T3 2 3 3)%Z = Ok (0%nat, true) /\
                get_immutable_by_index true k' (T3 3 0 0)%Z = Ok (0%nat, false)
            | _, _ => False end
  | _ => False end.
Proof. vm_compute. repeat split; reflexivity. Qed.
Lemma tenth_moderate : moderate f_0_1.
Proof.
  assert (H : moderate f_0_1 <-> (bpow radix2 (-900) <= val f_0_1 <= bpow radix2 900)) by (unfold moderate; split; [tauto|intros; split; [reflexivity|auto]]).
  apply H. replace (val f_0_1) with (F2R (Float radix2 7205759403792794 (-56))) by (vm_compute; lra). unfold F2R. cbn [Fnum Fexp]. split.
  - apply Rle_trans with (1 * bpow radix2 (-56)); [rewrite Rmult_1_l; apply bpow_le; discriminate|]. apply Rmult_le_compat_r; [apply bpow_ge_0|lra].
  - apply Rle_trans with (bpow radix2 53 * bpow radix2 (-56)); [|rewrite <- bpow_plus; apply bpow_le; discriminate]. apply Rmult_le_compat_r; [apply bpow_ge_0|].
    rewrite <- (IZR_Zpower radix2) by discriminate. apply IZR_le. discriminate.
Qed.
(** The hypotheses of the theorems hold for it. *)
Example C156_case_hypotheses : each moderate c_tenth /\ each2 in_reach c_base c_tenth /\ each (fun m => (m <= 2 ^ 45)%Z) (T3 3 4 5)%Z /\ inside (T3 3 4 5)%Z (T3 2 3 4)%Z.
Proof.
  pose proof tenth_moderate as M. split; [repeat split; apply M|]. split; [|split; [repeat split; discriminate|unfold inside; cbn [ax ay az]; lia]].
  assert (K : forall x, is_finite 53 1024 x = true -> Rabs (val x) <= 4 -> in_reach x f_0_1).
  { intros x F R. split; auto. apply Rle_trans with 4; auto.
    assert (/ 16 <= val f_0_1). { replace (val f_0_1) with (F2R (Float radix2 7205759403792794 (-56))) by (vm_compute; lra). unfold F2R. cbn [Fnum Fexp].
      apply Rle_trans with (bpow radix2 52 * bpow radix2 (-56)); [rewrite <- bpow_plus; right; reflexivity|]. apply Rmult_le_compat_r; [apply bpow_ge_0|].
      rewrite <- (IZR_Zpower radix2) by discriminate. apply IZR_le. discriminate. }
    assert (64 <= bpow radix2 45). { apply (bpow_le radix2 6 45). discriminate. } nra. }
  repeat split; cbn [ax ay az c_base c_tenth]; try reflexivity; apply K; try reflexivity.
  - change (val f_zero) with 0. rewrite Rabs_R0. lra.
  - replace (val f_3_4) with (F2R (Float radix2 7656119366529843 (-51))) by (vm_compute; lra). unfold F2R. cbn [Fnum Fexp].
    rewrite Rabs_pos_eq by (apply Rmult_le_pos; [lra|apply bpow_ge_0]). apply Rle_trans with (bpow radix2 53 * bpow radix2 (-51)); [|rewrite <- bpow_plus; right; reflexivity].
    apply Rmult_le_compat_r; [apply bpow_ge_0|]. rewrite <- (IZR_Zpower radix2) by discriminate. apply IZR_le. discriminate.
  - replace (val f_one) with 1 by (symmetry; apply (proj2 (of_Z_exact 1 ltac:(lia)))). rewrite Rabs_R1. lra.
Qed.

Print Assumptions C156_write. Print Assumptions C156_location. Print Assumptions C156_centre. Print Assumptions C156_whole. Print Assumptions C156_far_refuted.
