(** C155: making voxel grids. *)
From Verif Require Import Base VoxelModel VoxelFloat DynGridFloat VoxelMakeModel.
From Flocq Require Import IEEE754.Bits IEEE754.Binary Core Mult_error.
From Coq Require Import Reals Lra Psatz.
Open Scope R_scope.

(** ** Vocabulary *)
Notation val := (B2R 53 1024).
(** A size that can be used: a finite number above 0. *)
Definition usable (x : fl) : Prop := is_finite 53 1024 x = true /\ 0 < val x.
Definition each {A} (P : A -> Prop) (t : t3 A) : Prop := P (ax t) /\ P (ay t) /\ P (az t).
Definition product (n : t3 Z) : Z := (ax n * ay n * az n)%Z.

Local Instance P53 : Prec_gt_0 53 := eq_refl.
Local Instance VE : Valid_exp (SpecFloat.fexp 53 1024) := BinarySingleNaN.fexp_correct 53 1024 eq_refl.
(** ** The checks *)
Lemma checked_usable x : checked x = true <-> usable x.
Proof.
  unfold checked, usable, f_le0, f_inf. destruct x as [s|s|s pl H|s m e H].
  - split; [cbn; discriminate|]. cbn. intros (_ & A). lra.
  - split; [rewrite andb_false_r; discriminate|]. intros (A & _). discriminate.
  - split; [rewrite andb_false_r; discriminate|]. intros (A & _). discriminate.
  - rewrite !andb_true_r, negb_true_iff. unfold b64_compare. rewrite Bcompare_correct by reflexivity. change (val f_zero) with 0.
    set (x := B754_finite 53 1024 s m e H). destruct (Rcompare_spec (val x) 0) as [C|C|C]; split; try discriminate; try (intros (_ & D); lra); auto.
Qed.
Lemma all3_each {A} (f : A -> bool) (P : A -> Prop) t : (forall x, f x = true <-> P x) -> (all3 (map3 f t) = true <-> each P t).
Proof. intros H. unfold all3, map3, each. cbn. rewrite !andb_true_iff, !H. tauto. Qed.
Lemma check_counts_spec c n : check_counts c n = true <-> each usable c /\ each (fun k => (1 <= k)%Z) n.
Proof.
  unfold check_counts. rewrite andb_true_iff, (all3_each _ _ c checked_usable), (all3_each _ (fun k => (1 <= k)%Z) n); [tauto|].
  intros k. rewrite negb_true_iff, Z.leb_gt. lia.
Qed.
Lemma check_sizes_spec c s : check_sizes c s = true <-> each usable c /\ each usable s.
Proof. unfold check_sizes. rewrite andb_true_iff, !(all3_each _ _ _ checked_usable). tauto. Qed.
Lemma abs_id x : usable x -> b64_abs x = x.
Proof.
  intros (F & P). destruct x as [s|s|s pl H|s m e H]; try discriminate; [cbn in P; lra|]. destruct s; [|reflexivity].
  exfalso. assert (val (B754_finite 53 1024 true m e H) < 0) by (apply F2R_lt_0; reflexivity). lra.
Qed.
Lemma abs3_id c : each usable c -> map3 b64_abs c = c.
Proof. destruct c as [x y z]. intros (A & B & C). cbn in *. unfold map3. cbn. rewrite !abs_id by auto. reflexivity. Qed.

(** ** With counts *)
Section Make.
Variables I T : Type.
Variable translation : fl -> fl -> fl -> I.
Variable identity : I.
Variable inv : I -> I.
Variable maxn : Z.
Notation init := (initialize I T translation inv maxn).
Notation init_sizes := (initialize_sizes I T translation inv maxn).

(** Rejected exactly if a cell size is not usable or a count is below 1; the object stays as it is. *)
Theorem C155_rejects place g c n d o : (snd (init place g c n d o) = Throw InvalidArgument <-> ~ (each usable c /\ each (fun k => (1 <= k)%Z) n)) /\
  (snd (init place g c n d o) = Throw InvalidArgument -> fst (init place g c n d o) = g).
Proof.
  rewrite <- check_counts_spec. unfold initialize. destruct (check_counts c n); cbn [negb].
  - match goal with |- (snd ?t = _ <-> _) /\ _ => assert (N : snd t <> Throw InvalidArgument) end.
    { destruct ck; try discriminate. destruct (let! m := _ in _); try discriminate. destruct Z.leb; discriminate. }
    split; [split; intros A; [contradiction|exfalso; apply A; reflexivity]|intros A; contradiction].
  - split; [split; [intros _ A; discriminate|reflexivity]|reflexivity].
Qed.

Lemma product_ok n : each (fun k => (1 <= k)%Z) n -> (product n <= int64_max)%Z -> ck (ay n * az n) = Ok (ay n * az n)%Z /\ (let! m := ck (ax n * ay n) in ck (m * az n)) = Ok (product n).
Proof.
  intros (A & B & C) L. unfold product in *. assert (0 < ay n * az n /\ 0 < ax n * ay n)%Z by nia.
  assert (ay n * az n <= ax n * ay n * az n)%Z by nia. assert (ax n * ay n <= ax n * ay n * az n)%Z by nia.
  assert (K : forall z, (0 <= z <= int64_max)%Z -> ck z = Ok z). { intros z Z. unfold ck. destruct (Z.leb_spec int64_min z); [|unfold int64_min in *; lia]. destruct (Z.leb_spec z int64_max); [reflexivity|lia]. }
  rewrite !K by lia. cbn [obind]. rewrite K by lia. auto.
Qed.

(** Otherwise, if there is room, the grid is as asked for, whatever the object was before: cell sizes, counts, all cells with the default value; the inverse cell sizes and
    the sizes are the rounded ones. *)
Theorem C155_makes place g c n d o : each usable c -> each (fun k => (1 <= k)%Z) n -> (product n <= maxn)%Z -> (maxn <= int64_max)%Z ->
  exists r, init place g c n d o = (r, Ok tt) /\ v_cell _ _ r = c /\ v_n _ _ r = n /\ v_stride1 _ _ r = (ay n * az n)%Z /\ v_stride2 _ _ r = az n /\
    v_default _ _ r = d /\ v_oob _ _ r = o /\ v_init _ _ r = true /\ length (v_data _ _ r) = Z.to_nat (product n) /\ (forall x, In x (v_data _ _ r) -> x = d) /\
    v_inv_cell _ _ r = map3 (b64_div NE f_one) c /\ v_size _ _ r = zip3 (fun k x => b64_mult NE (f_of_Z k) x) n c /\
    v_inverse _ _ r = inv (v_origin _ _ r) /\ (forall t, place = Some t -> v_origin _ _ r = t) /\ (forall g', init place g' c n d o = (r, Ok tt)).
Proof.
  intros U N L M. assert (CC : check_counts c n = true) by (apply check_counts_spec; auto). destruct (product_ok n N ltac:(lia)) as (P1 & P2).
  unfold initialize. rewrite CC, P1, P2, (abs3_id c U). cbn [negb]. destruct (Z.leb_spec (product n) maxn); [|lia].
  eexists. split; [reflexivity|]. cbn [v_cell v_n v_stride1 v_stride2 v_default v_oob v_init v_data v_inv_cell v_size v_inverse v_origin]. repeat split; auto.
  - apply repeat_length.
  - intros x X. apply repeat_spec in X. auto.
  - intros t ->. reflexivity.
Qed.
(** Without a transform the origin is moved by minus half the size, exactly, so that the grid is centred. *)
Theorem C155_centred g c n d o : each usable c -> each (fun k => (1 <= k)%Z) n -> (product n <= maxn)%Z -> (maxn <= int64_max)%Z ->
  exists r tx ty tz, init None g c n d o = (r, Ok tt) /\ v_origin _ _ r = translation tx ty tz /\
    forall t s, In (t, s) [(tx, ax (v_size _ _ r)); (ty, ay (v_size _ _ r)); (tz, az (v_size _ _ r))] -> is_finite _ _ s = true -> bpow radix2 (-1021) <= val s -> val t = - (val s / 2).
Proof.
  intros U N L M. destruct (C155_makes None g c n d o U N L M) as (r & E & _ & _ & _ & _ & _ & _ & _ & _ & _ & _ & S & _).
  assert (CC : check_counts c n = true) by (apply check_counts_spec; auto). destruct (product_ok n N ltac:(lia)) as (P1 & P2).
  pose (h := fun x => b64_mult NE (b64_opp x) f_half). exists r, (h (ax (v_size _ _ r))), (h (ay (v_size _ _ r))), (h (az (v_size _ _ r))). split; [exact E|]. split.
  { unfold initialize in E. rewrite CC, P1, P2, (abs3_id c U) in E. cbn [negb] in E. destruct (Z.leb_spec (product n) maxn); [|lia]. injection E as <-. reflexivity. }
  assert (H : forall s, is_finite _ _ s = true -> bpow radix2 (-1021) <= val s -> val (h s) = - (val s / 2)).
  { intros s F B. unfold h. pose proof (Bmult_correct 53 1024 eq_refl eq_refl binop_nan_pl64 NE (b64_opp s) f_half) as X. change (BinarySingleNaN.round_mode NE) with ZnearestE in X.
    unfold b64_opp in *. rewrite B2R_Bopp in X. destruct half_exact as (_ & HH). rewrite HH in X.
    assert (G : generic_format radix2 (SpecFloat.fexp 53 1024) (- val s * / 2)).
    { change (/ 2) with (bpow radix2 (-1)). apply (mult_bpow_exact_FLT radix2 (-1074) 53); [apply generic_format_opp, generic_format_B2R|]. assert (-1020 <= mag radix2 (- val s))%Z; [|lia]. rewrite mag_opp.
      apply mag_ge_bpow. rewrite Rabs_pos_eq; [exact B|]. pose proof (bpow_gt_0 radix2 (-1021)). lra. }
    rewrite round_generic in X by (auto; typeclasses eauto).
    rewrite Rlt_bool_true in X. { unfold b64_mult. rewrite (proj1 X). lra. }
    pose proof (abs_B2R_lt_emax 53 1024 s) as Y. rewrite Rabs_mult, Rabs_Ropp, (Rabs_pos_eq (/2)) by lra. pose proof (Rabs_pos (val s)). lra. }
  intros t s [X|[X|[X|[]]]]; injection X as <- <-; apply H.
Qed.

(** ** With sizes *)
Lemma ceil_spec x : is_finite 53 1024 x = true -> f_ceil x = Zceil (val x).
Proof.
  destruct x as [s|s|s pl H|s m e H]; try discriminate; intros _; [cbn; rewrite Zceil_IZR; reflexivity|].
  cbn [f_ceil]. unfold B2R, F2R. cbn [Fnum Fexp]. set (z := cond_Zopp s (Zpos m)). destruct (Z.leb_spec 0 e) as [L|L].
  - rewrite <- (IZR_Zpower radix2) by auto. rewrite <- mult_IZR, Zceil_IZR. reflexivity.
  - unfold Zceil. f_equal. replace (- (IZR z * bpow radix2 e)) with (IZR (- z) / IZR (2 ^ (- e))).
    { symmetry. apply Zfloor_div. apply Z.pow_nonzero; lia. }
    rewrite opp_IZR. change (2 ^ - e)%Z with (radix2 ^ - e)%Z. rewrite IZR_Zpower by lia. rewrite bpow_opp. field. apply Rgt_not_eq, bpow_gt_0.
Qed.
Lemma quotient s c : usable s -> usable c -> val s / val c <= bpow radix2 1023 ->
  is_finite _ _ (b64_div NE s c) = true /\ val (b64_div NE s c) = rndN (val s / val c).
Proof.
  intros (FS & PS) (FC & PC) L. pose proof (Bdiv_correct 53 1024 eq_refl eq_refl binop_nan_pl64 NE s c) as H. change (BinarySingleNaN.round_mode NE) with ZnearestE in H.
  assert (P : 0 < val s / val c) by (apply Rdiv_lt_0_compat; auto).
  rewrite Rlt_bool_true in H. { destruct H as (A & B & _); [lra|]. rewrite FS in B. auto. }
  eapply Rle_lt_trans with (bpow radix2 1023); [|apply bpow_lt; lia]. rewrite Rabs_pos_eq.
  - rewrite <- (round_generic radix2 (SpecFloat.fexp 53 1024) ZnearestE (bpow radix2 1023)) by (apply generic_format_bpow; unfold SpecFloat.fexp, SpecFloat.emin; lia). apply round_le; [typeclasses eauto|typeclasses eauto|auto].
  - rewrite <- (round_0 radix2 (SpecFloat.fexp 53 1024) ZnearestE). apply round_le; [typeclasses eauto|typeclasses eauto|lra].
Qed.
Lemma count_spec s c : usable s -> usable c -> val s / val c <= bpow radix2 62 -> count s c = Ok (Zceil (rndN (val s / val c))).
Proof.
  intros S C L. unfold count. rewrite !abs_id by auto. destruct (quotient s c S C) as (F & V). { eapply Rle_trans; [exact L|]. apply bpow_le. lia. }
  rewrite F, ceil_spec, V by auto. unfold ck. assert (P : 0 < val s / val c) by (apply Rdiv_lt_0_compat; [apply S|apply C]).
  assert (H : 0 <= rndN (val s / val c) <= bpow radix2 62).
  { split.
    - rewrite <- (round_0 radix2 (SpecFloat.fexp 53 1024) ZnearestE). apply round_le; [typeclasses eauto|typeclasses eauto|lra].
    - rewrite <- (round_generic radix2 (SpecFloat.fexp 53 1024) ZnearestE (bpow radix2 62)) by (apply generic_format_bpow; unfold SpecFloat.fexp, SpecFloat.emin; lia). apply round_le; [typeclasses eauto|typeclasses eauto|auto]. }
  assert (A : (0 <= Zceil (rndN (val s / val c)) <= 2 ^ 62)%Z).
  { split; [apply le_IZR; eapply Rle_trans; [apply H|apply Zceil_ub]|]. apply Zceil_glb. rewrite <- (IZR_Zpower radix2) in H by lia. apply H. }
  destruct (Z.leb_spec int64_min (Zceil (rndN (val s / val c)))); [|unfold int64_min in *; lia]. destruct (Z.leb_spec (Zceil (rndN (val s / val c))) int64_max); [reflexivity|unfold int64_max in *; lia].
Qed.
(** Sizes of 2^63 cells or more are undefined behaviour. *)
Theorem C155_count_undefined s c : usable s -> usable c -> bpow radix2 63 <= val s / val c -> count s c = UB.
Proof.
  intros S C L. unfold count. rewrite !abs_id by auto. destruct (is_finite _ _ (b64_div NE s c)) eqn:F; [|reflexivity].
  pose proof (Bdiv_correct 53 1024 eq_refl eq_refl binop_nan_pl64 NE s c) as H. change (BinarySingleNaN.round_mode NE) with ZnearestE in H.
  destruct (Rlt_bool _ _) eqn:E in H; [|destruct (b64_div NE s c) eqn:D; unfold b64_div in D; rewrite D in H; specialize (H ltac:(pose proof (proj2 C); lra)); destruct (xorb _ _) in H; discriminate].
  destruct H as (V & _); [pose proof (proj2 C); lra|]. rewrite ceil_spec by auto. unfold b64_div in *. rewrite V.
  assert (G : bpow radix2 63 <= rndN (val s / val c)).
  { rewrite <- (round_generic radix2 (SpecFloat.fexp 53 1024) ZnearestE (bpow radix2 63)) by (apply generic_format_bpow; unfold SpecFloat.fexp, SpecFloat.emin; lia). apply round_le; [typeclasses eauto|typeclasses eauto|auto]. }
  unfold ck. destruct (Z.leb_spec (Zceil (rndN (val s / val c))) int64_max) as [A|A]; [|rewrite andb_false_r; reflexivity]. exfalso.
  apply IZR_le in A. pose proof (Zceil_ub (rndN (val s / val c))). rewrite <- (IZR_Zpower radix2) in G by lia. unfold int64_max in A. rewrite minus_IZR in A. change (radix2 ^ 63)%Z with (2 ^ 63)%Z in G. lra.
Qed.
(** The number of cells along an axis: as many as are needed for the size, up to the relative error of one rounding. *)
Theorem C155_count s c : usable s -> usable c -> bpow radix2 (-1074) <= val s / val c <= bpow radix2 62 ->
  exists n, count s c = Ok n /\ (1 <= n)%Z /\ (1 - / 2 ^ 53) * val s <= IZR n * val c /\ IZR (n - 1) * val c < (1 + / 2 ^ 53) * val s.
Proof.
  intros S C (L & U). exists (Zceil (rndN (val s / val c))). split; [apply count_spec; auto|]. set (q := val s / val c) in *. destruct S as (_ & S), C as (_ & C).
  assert (Q : val s = q * val c) by (unfold q; field; lra). assert (P : 0 < q) by (apply Rdiv_lt_0_compat; auto).
  assert (E53 : / 2 ^ 53 = bpow radix2 (-53)) by (change (bpow radix2 (-53)) with (/ IZR (2 ^ 53)); f_equal; rewrite pow_IZR; f_equal; lia).
  rewrite E53. assert (SM : bpow radix2 (-53) < 1) by (change 1 with (bpow radix2 0); apply bpow_lt; lia). pose proof (bpow_gt_0 radix2 (-53)) as SP.
  assert (B1 : bpow radix2 (-1074) <= rndN q).
  { rewrite <- (round_generic radix2 (SpecFloat.fexp 53 1024) ZnearestE (bpow radix2 (-1074))) by (apply generic_format_bpow; unfold SpecFloat.fexp, SpecFloat.emin; lia). apply round_le; [typeclasses eauto|typeclasses eauto|auto]. }
  pose proof (bpow_gt_0 radix2 (-1074)) as TP.
  assert (N1 : (1 <= Zceil (rndN q))%Z). { assert (0 < Zceil (rndN q))%Z; [|lia]. apply lt_IZR. eapply Rlt_le_trans; [|apply Zceil_ub]. lra. }
  split; [exact N1|]. destruct (Rle_dec 1 q) as [Q1|Q1].
  - destruct (rnd_rel q) as (e & E & R). { rewrite Rabs_pos_eq by lra. eapply Rle_trans; [|exact Q1]. rewrite <- b_0. apply b_le. lia. }
    rewrite b_opaque in E. apply Rabs_le_inv in E. pose proof (Zceil_ub (rndN q)) as ZU. assert (ZL : IZR (Zceil (rndN q) - 1) < rndN q) by (rewrite minus_IZR; pose proof (Zceil_lb (rndN q)); lra).
    assert (QC : 0 < q * val c) by (apply Rmult_lt_0_compat; auto). rewrite Q. split.
    + apply Rle_trans with (rndN q * val c); [|apply Rmult_le_compat_r; lra]. rewrite R. replace (q * (1 + e) * val c) with ((1 + e) * (q * val c)) by ring. apply Rmult_le_compat_r; lra.
    + apply Rlt_le_trans with (rndN q * val c); [apply Rmult_lt_compat_r; lra|]. rewrite R. replace (q * (1 + e) * val c) with ((1 + e) * (q * val c)) by ring. apply Rmult_le_compat_r; lra.
  - assert (O : rndN q <= 1). { rewrite <- (round_generic radix2 (SpecFloat.fexp 53 1024) ZnearestE 1) by (change 1 with (bpow radix2 0); apply generic_format_bpow; unfold SpecFloat.fexp, SpecFloat.emin; lia). apply round_le; [typeclasses eauto|typeclasses eauto|lra]. }
    assert (Z1 : Zceil (rndN q) = 1%Z). { apply Z.le_antisymm; [|exact N1]. apply Zceil_glb. exact O. }
    rewrite Z1. split; [rewrite Q; nra|]. change (1 - 1)%Z with 0%Z. rewrite Rmult_0_l. apply Rmult_lt_0_compat; lra.
Qed.
(** A size that is exactly [k] cells gives [k] cells; the size a grid of [k] cells has, which is rounded, gives [k] or [k + 1] cells. *)
Theorem C155_count_exact s c k : usable s -> usable c -> (1 <= k < 2 ^ 53)%Z -> val s = IZR k * val c -> count s c = Ok k.
Proof.
  intros S C K E. assert (Q : val s / val c = IZR k) by (rewrite E; field; apply Rgt_not_eq, C).
  rewrite count_spec, Q; auto. { rewrite round_generic, Zceil_IZR; auto; [typeclasses eauto|]. replace (IZR k) with (F2R (Float radix2 k 0)) by (unfold F2R; cbn; ring). apply fmt; lia. }
  rewrite Q. change (bpow radix2 62) with (IZR (2 ^ 62)). apply IZR_le. lia.
Qed.
Theorem C155_count_again c k : usable c -> (1 <= k <= 2 ^ 51)%Z -> bpow radix2 (-1022) <= IZR k * val c <= bpow radix2 1023 ->
  let s := b64_mult NE (f_of_Z k) c in count s c = Ok k \/ count s c = Ok (k + 1)%Z.
Proof.
  intros C K (L & U). cbn zeta. destruct (of_Z_exact k) as (FK & VK); [lia|]. assert (K1 : 1 <= IZR k) by (apply IZR_le; lia). pose proof (proj2 C) as PC.
  assert (PK : 0 < IZR k * val c) by (apply Rmult_lt_0_compat; lra).
  destruct (mult_rel (f_of_Z k) c FK (proj1 C)) as (e & E & F & V). { rewrite VK, Rabs_pos_eq by lra. exact (conj L U). }
  rewrite VK in V. set (s := b64_mult NE (f_of_Z k) c) in *. rewrite b_opaque in E. apply Rabs_le_inv in E.
  assert (TT : 2 * IZR k * bpow radix2 (-53) <= / 2).
  { assert (IZR k <= IZR (2 ^ 51)) by (apply IZR_le; lia). change (IZR (2 ^ 51)) with (bpow radix2 51) in *. assert (bpow radix2 51 * bpow radix2 (-53) = / 4) by (rewrite <- bpow_plus; cbn; lra). pose proof (bpow_gt_0 radix2 (-53)). nra. }
  assert (SM : bpow radix2 (-53) <= / 4) by (change (/ 4) with (bpow radix2 (-2)); apply bpow_le; lia). pose proof (bpow_gt_0 radix2 (-53)) as SP.
  assert (US : usable s) by (split; [exact F|rewrite V; apply Rmult_lt_0_compat; lra]).
  assert (Q : val s / val c = IZR k * (1 + e)) by (rewrite V; field; lra). assert (QL : IZR k - / 4 <= val s / val c <= IZR k + / 4) by (rewrite Q; nra).
  rewrite count_spec; auto. 2:{ apply Rle_trans with (IZR (2 ^ 51) + 1). - assert (IZR k <= IZR (2 ^ 51)) by (apply IZR_le; lia). lra. - rewrite <- plus_IZR. change (bpow radix2 62) with (IZR (2 ^ 62)). apply IZR_le. lia. }
  set (q := val s / val c) in *. destruct (rnd_rel q) as (e' & E' & R). { rewrite Rabs_pos_eq by lra. apply Rle_trans with (b (-1)). - apply b_le. lia. - rewrite b_opaque. change (bpow radix2 (-1)) with (/ 2). lra. }
  rewrite b_opaque in E'. apply Rabs_le_inv in E'. assert (RL : IZR k - 1 < rndN q <= IZR k + 1).
  { rewrite R, Q. assert (A : Rabs ((1 + e) * (1 + e') - 1) <= 3 * bpow radix2 (-53)). { apply Rabs_le. nra. } apply Rabs_le_inv in A. nra. }
  destruct (Rle_dec (rndN q) (IZR k)) as [D|D]; [left|right]; f_equal; apply Zceil_imp.
  - rewrite minus_IZR. lra.
  - rewrite minus_IZR, plus_IZR. lra.
Qed.
(** Sizes: rejected for arguments that are not usable, and then the object stays; otherwise the same as with the counts. *)
Theorem C155_sizes place g c s d o : (~ (each usable c /\ each usable s) -> init_sizes place g c s d o = (g, Throw InvalidArgument)) /\
  (each usable c -> each usable s -> forall nx ny nz, count (ax s) (ax c) = Ok nx -> count (ay s) (ay c) = Ok ny -> count (az s) (az c) = Ok nz ->
   init_sizes place g c s d o = init place g c (T3 nx ny nz) d o).
Proof.
  rewrite <- check_sizes_spec. split.
  - intros H. unfold initialize_sizes. destruct (check_sizes c s); [exfalso; auto|reflexivity].
  - intros C S nx ny nz X Y Z. unfold initialize_sizes. replace (check_sizes c s) with true by (symmetry; apply check_sizes_spec; auto). cbn [negb]. rewrite X, Y, Z. reflexivity.
Qed.
(** The constructors agree: one cell size is three equal ones, no out-of-bounds value is the default value, and what the memory held does not matter. *)
Theorem C155_constructors junk junk' place e d c oob : let mk := construct I T translation inv maxn in
  mk junk place (One c) e d oob = mk junk place (Three c c c) e d oob /\ (forall cs, mk junk place cs e d None = mk junk place cs e d (Some d)) /\
  (forall cs, mk junk place cs e d oob = mk junk' place cs e d oob).
Proof.
  cbn zeta. split; [reflexivity|]. split; [reflexivity|]. intros cs. unfold construct.
  assert (K : forall c' n o, match init place junk c' n d o with (g, Ok _) => Ok g | (_, Throw e) => Throw e | (_, AssertFail) => AssertFail | (_, NoFuel) => NoFuel | (_, UB) => UB end =
    match init place junk' c' n d o with (g, Ok _) => Ok g | (_, Throw e) => Throw e | (_, AssertFail) => AssertFail | (_, NoFuel) => NoFuel | (_, UB) => UB end).
  { intros c' n o. unfold initialize. destruct (check_counts c' n); cbn [negb]; auto. destruct ck; auto. destruct (let! m := _ in _); auto. destruct Z.leb; auto. }
  destruct e; [|apply K]. unfold initialize_sizes. destruct check_sizes; cbn [negb]; auto. destruct (count _ _); auto. destruct (count _ _); auto. destruct (count _ _); auto.
Qed.
(** The default constructor makes a grid without cells that is not initialized. *)
Theorem C155_blank d0 : let g := blank I T identity inv d0 in v_init _ _ g = false /\ v_data _ _ g = [] /\ v_n _ _ g = T3 0%Z 0%Z 0%Z /\ v_origin _ _ g = identity.
Proof. repeat split. Qed.
(** ** The dynamic grid *)
Theorem C155_dynamic place g c n d : (snd (d_initialize I T identity inv place g c n d) = Throw InvalidArgument <-> ~ (each usable c /\ each (fun k => (1 <= k)%Z) n)) /\
  (snd (d_initialize I T identity inv place g c n d) = Throw InvalidArgument -> fst (d_initialize I T identity inv place g c n d) = g) /\
  (each usable c -> each (fun k => (1 <= k)%Z) n -> (ay n * az n <= int64_max)%Z -> exists r, d_initialize I T identity inv place g c n d = (r, Ok tt) /\
     d_cell _ _ r = c /\ d_n _ _ r = n /\ d_default _ _ r = d /\ d_init _ _ r = true /\ d_size _ _ r = zip3 (fun x k => b64_mult NE x (f_of_Z k)) c n /\
     d_origin _ _ r = match place with Some t => t | None => identity end /\ d_inverse _ _ r = inv (d_origin _ _ r)).
Proof.
  rewrite <- check_counts_spec. unfold d_initialize. destruct (check_counts c n) eqn:E; cbn [negb].
  - split; [split; [destruct ck; discriminate|intros A; exfalso; apply A; reflexivity]|]. split; [destruct ck; discriminate|].
    intros C N L. assert (K : ck (ay n * az n) = Ok (ay n * az n)%Z).
    { destruct N as (_ & A & B). unfold ck. destruct (Z.leb_spec int64_min (ay n * az n)); [|unfold int64_min in *; nia]. destruct (Z.leb_spec (ay n * az n) int64_max); [reflexivity|lia]. }
    rewrite K, (abs3_id c C). eexists. split; [reflexivity|]. cbn [d_cell d_n d_default d_init d_size d_origin d_inverse]. repeat split; auto.
  - split; [split; [intros _ A; discriminate|reflexivity]|]. split; [reflexivity|]. intros C N. assert (check_counts c n = true) by (apply check_counts_spec; auto). congruence.
Qed.
(** A grid made by the default constructor says that it is initialized, but looking up any point is undefined. *)
Theorem C155_dynamic_blank_refuted d0 : d_init _ _ (d_blank I T identity inv d0) = true /\ forall dbg p, region I T dbg (d_blank I T identity inv d0) p = UB.
Proof.
  split; [reflexivity|]. intros dbg p.
  assert (H : f_floor (b64_div NE (ax p) f_zero) = UB) by (destruct (ax p); reflexivity).
  unfold region. change (d_init _ _ _) with true. change (ax (d_size _ _ _)) with f_zero. rewrite H. destruct dbg; reflexivity.
Qed.
End Make.
Print Assumptions C155_rejects.
Print Assumptions C155_makes.
Print Assumptions C155_centred.
Print Assumptions C155_count.
Print Assumptions C155_count_exact.
Print Assumptions C155_count_again.
Print Assumptions C155_count_undefined.
Print Assumptions C155_blank.
Print Assumptions C155_sizes.
Print Assumptions C155_constructors.
Print Assumptions C155_dynamic.
Print Assumptions C155_dynamic_blank_refuted.

(** ** What does not hold *)
Notation lit m e := (binary_normalize 53 1024 eq_refl eq_refl NE m e false).
Lemma lit_usable x : checked x = true -> usable x. Proof. apply checked_usable. Qed.
(** Cells of 0.1 and the size of a grid of three such cells: four cells. *)
Theorem C155_one_more_refuted : exists c k, usable c /\ (1 <= k)%Z /\ count (b64_mult NE (f_of_Z k) c) c = Ok (k + 1)%Z.
Proof. exists f_0_1, 3%Z. split; [apply lit_usable; vm_compute; reflexivity|]. split; [lia|]. vm_compute. reflexivity. Qed.
Print Assumptions C155_one_more_refuted.
(** Cells of 0.09 and a size of 0.9: ten cells, which are together smaller than 0.9. *)
Theorem C155_too_small_refuted : exists s c n, usable s /\ usable c /\ count s c = Ok n /\ f_lt (b64_mult NE (f_of_Z n) c) s = true /\ IZR n * val c < val s.
Proof.
  exists (lit 0x1ccccccccccccd%Z (-53)%Z), (lit 0x170a3d70a3d70a%Z (-56)%Z), 10%Z. split; [apply lit_usable; vm_compute; reflexivity|]. split; [apply lit_usable; vm_compute; reflexivity|].
  split; [vm_compute; reflexivity|]. split; [vm_compute; reflexivity|]. vm_compute. lra.
Qed.
Print Assumptions C155_too_small_refuted.
(** Sizes above 0 are rejected as if they were not when the quotient is rounded to 0. *)
Theorem C155_tiny_refuted : exists c s, usable c /\ usable s /\ forall I T translation inv maxn place g d o,
  initialize_sizes I T translation inv maxn place g (T3 c c c) (T3 s s s) d o = (g, Throw InvalidArgument).
Proof.
  exists (lit 4 0), (lit 1 (-1074)). split; [apply lit_usable; vm_compute; reflexivity|]. split; [apply lit_usable; vm_compute; reflexivity|]. intros I T translation inv maxn place g d o.
  unfold initialize_sizes. replace (check_sizes _ _) with true by (vm_compute; reflexivity). cbn [negb ax ay az]. replace (count _ _) with (Ok 0%Z) by (vm_compute; reflexivity).
  unfold initialize. replace (check_counts _ _) with false by (vm_compute; reflexivity). reflexivity.
Qed.
Print Assumptions C155_tiny_refuted.
(** A quotient that is too large is undefined behaviour, not an exception. *)
Theorem C155_huge_refuted : exists c s, usable c /\ usable s /\ count s c = UB.
Proof. exists (lit 1 (-60)), (lit 16 0). split; [apply lit_usable; vm_compute; reflexivity|]. split; [apply lit_usable; vm_compute; reflexivity|]. vm_compute. reflexivity. Qed.
Print Assumptions C155_huge_refuted.
(** Cell sizes that pass the checks but cannot be used: the inverse or the size of the grid is infinite. *)
Theorem C155_infinite_refuted : (exists c, usable c /\ b64_div NE f_one c = B754_infinity _ _ false) /\ (exists c, usable c /\ b64_mult NE (f_of_Z 2) c = B754_infinity _ _ false).
Proof.
  split; [exists (lit 1 (-1074))|exists (lit 1 1023)]; (split; [apply lit_usable; vm_compute; reflexivity|]); vm_compute; reflexivity.
Qed.
Print Assumptions C155_infinite_refuted.
(** Initialize of a grid that was good, with more cells than there is room for: the exception leaves an object with the new counts and no cells that still says it is
    initialized, with the old transform. *)
Theorem C155_reinitialize_refuted : exists (g : vg nat nat) c n, v_init _ _ g = true /\ length (v_data _ _ g) = 1%nat /\
  let r := initialize nat nat (fun _ _ _ => 0%nat) (fun i => i) 1000 (Some 7%nat) g c n 5%nat 6%nat in
  snd r = Throw LengthError /\ v_init _ _ (fst r) = true /\ v_n _ _ (fst r) = n /\ v_data _ _ (fst r) = [] /\ v_origin _ _ (fst r) = v_origin _ _ g.
Proof.
  exists (fst (initialize nat nat (fun _ _ _ => 0%nat) (fun i => i) 1000 (Some 3%nat) (blank nat nat 0%nat (fun i => i) 0%nat) (T3 f_one f_one f_one) (T3 1 1 1)%Z 1%nat 2%nat)), (T3 f_one f_one f_one), (T3 11 11 11)%Z.
  repeat split; vm_compute; reflexivity.
Qed.
Print Assumptions C155_reinitialize_refuted.
(** A case: 2 x 3 x 4 cells of 0.5 from sizes. *)
Example made : match construct nat nat (fun _ _ _ => 1%nat) (fun i => i) 1000 (blank nat nat 0%nat (fun i => i) 0%nat) None (One f_0_5) (Sizes f_one (lit 3 (-1)) (f_of_Z 2)) 8%nat None with
  | Ok g => (ax (v_n _ _ g), ay (v_n _ _ g), az (v_n _ _ g), length (v_data _ _ g), v_oob _ _ g, map (fun x => b64_compare x (lit 3 (-1))) [ax (v_size _ _ g); ay (v_size _ _ g); az (v_size _ _ g)])
  | _ => (0%Z, 0%Z, 0%Z, 0%nat, 0%nat, [])
  end = (2%Z, 3%Z, 4%Z, 24%nat, 8%nat, [Some Lt; Some Eq; Some Gt]).
Proof. vm_compute. reflexivity. Qed.
