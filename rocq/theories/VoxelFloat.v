(** The grid-frame part of voxel_grid.hpp in IEEE double arithmetic (round to nearest even), one axis at a time. *)
From Verif Require Import Base VoxelModel VoxelProofs VoxelGeom VoxelGeomProofs.
From Flocq Require Import IEEE754.Bits IEEE754.Binary Core Relative.
From Coq Require Import Reals Lra Psatz.

Notation fl := (binary_float 53 1024).
Notation NE := BinarySingleNaN.mode_NE.

(** (double)i for an int64_t, and double constants. *)
Definition f_of_Z (i : Z) : fl := binary_normalize 53 1024 eq_refl eq_refl NE i 0 false.
Definition f_half : fl := binary_normalize 53 1024 eq_refl eq_refl NE 1 (-1) false.
Definition f_one : fl := f_of_Z 1.

(** (int64_t)x for a double: truncation, undefined for NaN, infinities and values that do not fit. *)
Definition f_to_int64 (x : fl) : outcome Z := if is_finite 53 1024 x then ck (Btrunc 53 1024 x) else UB.

(** voxel_grid.hpp:191-193: inverse cell size. *)
Definition f_inv (cell : fl) : fl := b64_div NE f_one cell.

(** voxel_grid.hpp:812-825 GridIndexToLocationGridFrame, one coordinate: cell * ((double)i + 0.5). *)
Definition f_centre (cell : fl) (i : Z) : fl := b64_mult NE cell (b64_plus NE (f_of_Z i) f_half).

(** voxel_grid.hpp:759-778 PointInFrameToGridIndex, one coordinate: (int64_t)(x * inv_cell). *)
Definition f_index (cell x : fl) : outcome Z := f_to_int64 (b64_mult NE x (f_inv cell)).

(** ** Proofs *)
Local Instance P53 : Prec_gt_0 53 := eq_refl.
Local Instance VE : Valid_exp (SpecFloat.fexp 53 1024) := BinarySingleNaN.fexp_correct 53 1024 eq_refl.
Notation B := (B2R 53 1024).
Notation rndN := (round radix2 (SpecFloat.fexp 53 1024) ZnearestE).
Open Scope R_scope.

Definition b p := bpow radix2 p.
Lemma b_opaque p : b p = bpow radix2 p. Proof. reflexivity. Qed.
Lemma b_pos p : 0 < b p. Proof. apply bpow_gt_0. Qed.
Lemma b_add p q : b (p + q) = b p * b q. Proof. apply bpow_plus. Qed.
Lemma b_le p q : (p <= q)%Z -> b p <= b q. Proof. apply bpow_le. Qed.
Lemma b_lt p q : (p < q)%Z -> b p < b q. Proof. apply bpow_lt. Qed.
Lemma b_0 : b 0 = 1. Proof. reflexivity. Qed.
Global Opaque b.

Lemma rnd_rel x : b (-1022) <= Rabs x -> exists e, Rabs e <= b (-53) /\ rndN x = x * (1 + e).
Proof.
  intros H.
  destruct (relative_error_N_FLT_ex radix2 (-1074) 53 eq_refl (fun x => negb (Z.even x)) x) as (e & A & E).
  - exact H.
  - exists e. split; [|exact E].
    eapply Rle_trans; [exact A|]. change (-53 + 1)%Z with (-52)%Z.
    change (/ 2) with (/ bpow radix2 1). rewrite <- bpow_opp, <- bpow_plus. right. reflexivity.
Qed.

Lemma rel_lt x e : Rabs e <= b (-53) -> Rabs x <= b 1023 -> Rabs (x * (1 + e)) < b 1024.
Proof.
  intros A X. rewrite Rabs_mult. replace (b 1024) with (b 1023 * 2).
  2:{ change 2 with (bpow radix2 1). rewrite <- (b_opaque 1), <- b_add. reflexivity. }
  assert (Rabs (1 + e) < 2).
  { assert (b (-53) < 1) by (rewrite <- b_0; apply b_lt; reflexivity).
    apply Rabs_def1; [pose proof (Rle_abs e)|pose proof (Rle_abs (-e)) as Q; rewrite Rabs_Ropp in Q]; lra. }
  pose proof (Rabs_pos x). pose proof (Rabs_pos (1 + e)). pose proof (b_pos 1023). nra.
Qed.

Lemma mult_rel x y : is_finite 53 1024 x = true -> is_finite 53 1024 y = true ->
  b (-1022) <= Rabs (B x * B y) <= b 1023 ->
  exists e, Rabs e <= b (-53) /\ is_finite 53 1024 (b64_mult NE x y) = true /\ B (b64_mult NE x y) = B x * B y * (1 + e).
Proof.
  intros FX FY (L & U). destruct (rnd_rel _ L) as (e & A & E). exists e. split; auto.
  pose proof (Bmult_correct 53 1024 eq_refl eq_refl binop_nan_pl64 NE x y) as H.
  change (BinarySingleNaN.round_mode NE) with ZnearestE in H. rewrite E in H.
  change (bpow radix2 1024) with (b 1024) in H.
  rewrite Rlt_bool_true in H by (apply rel_lt; auto). destruct H as (H1 & H2 & _).
  rewrite FX, FY in H2. split; [exact H2|exact H1].
Qed.

Lemma div_rel x y : is_finite 53 1024 x = true -> B y <> 0 ->
  b (-1022) <= Rabs (B x / B y) <= b 1023 ->
  exists e, Rabs e <= b (-53) /\ is_finite 53 1024 (b64_div NE x y) = true /\ B (b64_div NE x y) = B x / B y * (1 + e).
Proof.
  intros FX NY (L & U). destruct (rnd_rel _ L) as (e & A & E). exists e. split; auto.
  pose proof (Bdiv_correct 53 1024 eq_refl eq_refl binop_nan_pl64 NE x y NY) as H.
  change (BinarySingleNaN.round_mode NE) with ZnearestE in H. rewrite E in H.
  change (bpow radix2 1024) with (b 1024) in H.
  rewrite Rlt_bool_true in H by (apply rel_lt; auto). destruct H as (H1 & H2 & _).
  rewrite FX in H2. split; [exact H2|exact H1].
Qed.

(** Integers and half integers below 2^51 are doubles. *)
Lemma F_half i : IZR i + /2 = F2R (Float radix2 (2 * i + 1) (-1)).
Proof. unfold F2R; cbn [Fnum Fexp]. rewrite plus_IZR, mult_IZR. change (bpow radix2 (-1)) with (/2). lra. Qed.

Lemma fmt m e : (Z.abs m < 2 ^ 53)%Z -> (-1074 <= e)%Z -> generic_format radix2 (SpecFloat.fexp 53 1024) (F2R (Float radix2 m e)).
Proof. intros A C. apply (generic_format_FLT radix2 (-1074) 53). exists (Float radix2 m e); auto. Qed.

Lemma of_Z_exact i : (0 <= i < 2 ^ 53)%Z -> is_finite 53 1024 (f_of_Z i) = true /\ B (f_of_Z i) = IZR i.
Proof.
  intros Hi. unfold f_of_Z.
  pose proof (binary_normalize_correct 53 1024 eq_refl eq_refl NE i 0 false) as H.
  change (BinarySingleNaN.round_mode NE) with ZnearestE in H.
  assert (E : F2R (Float radix2 i 0) = IZR i) by (unfold F2R; cbn [Fnum Fexp]; change (bpow radix2 0) with 1; ring).
  rewrite round_generic in H; [|apply valid_rnd_N|apply fmt; lia].
  rewrite E in H. change (bpow radix2 1024) with (b 1024) in H.
  rewrite Rlt_bool_true in H; [tauto|].
  rewrite Rabs_pos_eq by (apply IZR_le; lia).
  apply Rlt_trans with (b 53); [|apply b_lt; reflexivity].
  Transparent b. unfold b. Opaque b. rewrite <- (IZR_Zpower radix2) by discriminate. apply IZR_lt. apply Hi.
Qed.

Lemma half_exact : is_finite 53 1024 f_half = true /\ B f_half = /2.
Proof.
  unfold f_half. pose proof (binary_normalize_correct 53 1024 eq_refl eq_refl NE 1 (-1) false) as H.
  change (BinarySingleNaN.round_mode NE) with ZnearestE in H.
  assert (E : F2R (Float radix2 1 (-1)) = /2) by (unfold F2R; cbn [Fnum Fexp]; change (bpow radix2 (-1)) with (/2); ring).
  rewrite round_generic in H; [|apply valid_rnd_N|apply fmt; [reflexivity|discriminate]].
  rewrite E in H. change (bpow radix2 1024) with (b 1024) in H.
  rewrite Rlt_bool_true in H; [tauto|].
  rewrite Rabs_pos_eq by lra. apply Rlt_trans with (b 0); [rewrite b_0; lra|apply b_lt; reflexivity].
Qed.

Lemma idx_half_exact i : (0 <= i < 2 ^ 50)%Z ->
  is_finite 53 1024 (b64_plus NE (f_of_Z i) f_half) = true /\ B (b64_plus NE (f_of_Z i) f_half) = IZR i + /2.
Proof.
  intros Hi. destruct (of_Z_exact i) as (F1 & B1); [lia|]. destruct half_exact as (F2 & B2).
  pose proof (Bplus_correct 53 1024 eq_refl eq_refl binop_nan_pl64 NE _ _ F1 F2) as H.
  change (BinarySingleNaN.round_mode NE) with ZnearestE in H. rewrite B1, B2 in H.
  rewrite round_generic in H; [|apply valid_rnd_N|rewrite F_half; apply fmt; lia].
  change (bpow radix2 1024) with (b 1024) in H.
  rewrite Rlt_bool_true in H; [tauto|].
  assert (P : 0 <= IZR i) by (apply IZR_le; lia).
  rewrite Rabs_pos_eq by lra. apply Rlt_trans with (b 51); [|apply b_lt; reflexivity].
  apply Rlt_le_trans with (IZR (2 ^ 50) + 1).
  - assert (IZR i < IZR (2 ^ 50)) by (apply IZR_lt; lia). lra.
  - Transparent b. unfold b. Opaque b. rewrite <- (IZR_Zpower radix2) by discriminate. rewrite <- plus_IZR. apply IZR_le. discriminate.
Qed.

(** The centre of cell [i] maps back to [i], for every cell size between 2^-900 and 2^900 and every index
    below 2^50. *)
Lemma centre_index cell i :
  is_finite 53 1024 cell = true -> b (-900) <= B cell <= b 900 -> (0 <= i < 2 ^ 50)%Z ->
  f_index cell (f_centre cell i) = Ok i.
Proof.
  intros FC (CL & CU) Hi. pose proof (b_pos (-900)) as P900.
  assert (C0 : 0 < B cell) by lra.
  set (h := IZR i + /2).
  assert (P : 0 <= IZR i) by (apply IZR_le; lia).
  assert (HL : b (-1) <= h) by (change (b (-1)) with (/2)%R; unfold h; lra).
  assert (H0 : 0 < h) by (unfold h; lra).
  assert (HU0 : h < IZR (2 ^ 50)).
  { unfold h. assert (IZR i <= IZR (2 ^ 50) - 1) by (rewrite <- minus_IZR; apply IZR_le; lia). lra. }
  assert (E50 : IZR (2 ^ 50) = b 50).
  { Transparent b. unfold b. Opaque b. rewrite <- (IZR_Zpower radix2) by discriminate. reflexivity. }
  rewrite E50 in HU0.
  destruct (idx_half_exact i Hi) as (F1 & B1). fold h in B1.
  (* centre *)
  destruct (mult_rel cell (b64_plus NE (f_of_Z i) f_half) FC F1) as (e1 & A1 & F2 & B2).
  { rewrite B1, Rabs_pos_eq by (apply Rmult_le_pos; lra). split.
    - apply Rle_trans with (b (-900) * b (-1)); [rewrite <- b_add; apply b_le; discriminate|].
      apply Rmult_le_compat; auto; left; apply b_pos.
    - apply Rle_trans with (b 900 * b 50); [|rewrite <- b_add; apply b_le; discriminate].
      apply Rmult_le_compat; lra. }
  fold (f_centre cell i) in F2, B2. rewrite B1 in B2.
  (* inverse *)
  assert (I1 : b (-900) <= / B cell <= b 900).
  { assert (V : / b 900 = b (-900)).
    { apply Rmult_eq_reg_l with (b 900); [|pose proof (b_pos 900); lra]. rewrite <- b_add, Rinv_r, <- b_0; [reflexivity|]. pose proof (b_pos 900); lra. }
    assert (V' : / b (-900) = b 900). { rewrite <- V. apply Rinv_inv. }
    split; [rewrite <- V|rewrite <- V']; apply Rinv_le; lra. }
  destruct (of_Z_exact 1 ltac:(lia)) as (FO & BO). fold f_one in FO, BO.
  destruct (div_rel f_one cell FO) as (e2 & A2 & F3 & B3).
  { lra. }
  { rewrite BO. unfold Rdiv. rewrite Rmult_1_l, Rabs_pos_eq by lra. split.
    - apply Rle_trans with (b (-900)); [apply b_le; discriminate|apply I1].
    - apply Rle_trans with (b 900); [apply I1|apply b_le; discriminate]. }
  fold (f_inv cell) in F3, B3. rewrite BO in B3.
  (* product *)
  assert (S53 : 8 * b (-53) = b (-50)) by (change 8 with (bpow radix2 3); rewrite <- (b_opaque 3), <- b_add; reflexivity).
  assert (T53 : b (-50) < 1) by (rewrite <- b_0; apply b_lt; reflexivity).
  assert (T50 : b (-50) * b 50 = 1) by (rewrite <- b_add; apply b_0).
  pose proof (b_pos (-53)) as P53'.
  assert (Q1 : - b (-53) <= e1 <= b (-53)).
  { pose proof (Rle_abs e1). pose proof (Rle_abs (-e1)) as Q; rewrite Rabs_Ropp in Q. lra. }
  assert (Q2 : - b (-53) <= e2 <= b (-53)).
  { pose proof (Rle_abs e2). pose proof (Rle_abs (-e2)) as Q; rewrite Rabs_Ropp in Q. lra. }
  assert (PR : B (f_centre cell i) * B (f_inv cell) = h * ((1 + e1) * (1 + e2))).
  { rewrite B2, B3. field. lra. }
  set (u := b (-53)) in *.
  assert (K : 1 - 2.5 * u <= (1 + e1) * (1 + e2) <= 1 + 2.5 * u) by nra.
  assert (KH : h * (1 - 2.5 * u) <= h * ((1 + e1) * (1 + e2)) <= h * (1 + 2.5 * u)) by nra.
  assert (HM : b (-1) <= h) by exact HL. pose proof (b_pos (-1)).
  destruct (mult_rel (f_centre cell i) (f_inv cell) F2 F3) as (e3 & A3 & F4 & B4).
  { rewrite PR, Rabs_pos_eq by nra. split.
    - apply Rle_trans with (b (-2)); [apply b_le; discriminate|].
      replace (b (-2)) with (b (-1) * /2) by (change (/2) with (bpow radix2 (-1)); rewrite <- (b_opaque (-1)), <- b_add; reflexivity).
      nra.
    - apply Rle_trans with (b 50 * 2).
      + nra.
      + change 2 with (bpow radix2 1). rewrite <- (b_opaque 1), <- b_add. apply b_le. discriminate. }
  assert (Q3 : - u <= e3 <= u).
  { fold u in A3. pose proof (Rle_abs e3). pose proof (Rle_abs (-e3)) as Q; rewrite Rabs_Ropp in Q. lra. }
  rewrite PR in B4. unfold f_index, f_to_int64. rewrite F4.
  assert (V : IZR i <= B (b64_mult NE (f_centre cell i) (f_inv cell)) < IZR i + 1).
  { rewrite B4. set (w := (1 + e1) * (1 + e2)) in *.
    assert (W : 1 - 4 * u <= w * (1 + e3) <= 1 + 4 * u) by nra.
    assert (HB : h * (4 * u) < /2).
    { assert (G : h * b (-50) < b 50 * b (-50)) by (apply Rmult_lt_compat_r; [apply b_pos|exact HU0]).
      rewrite (Rmult_comm (b 50)), T50, <- S53 in G. lra. }
    rewrite Rmult_assoc. assert (HP : 0 < h) by lra.
    assert (h * (1 - 4 * u) <= h * (w * (1 + e3)) <= h * (1 + 4 * u)) by (split; apply Rmult_le_compat_l; lra).
    unfold h in *. lra. }
  assert (T : Btrunc 53 1024 (b64_mult NE (f_centre cell i) (f_inv cell)) = i).
  { apply eq_IZR. rewrite Btrunc_correct by reflexivity. rewrite round_FIX_IZR. f_equal.
    apply trunc_pos; [lia|exact V]. }
  rewrite T. apply ck_ok. unfold int64_min, int64_max. lia.
Qed.
