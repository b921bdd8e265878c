(** One axis of the chunks of the dynamic grid in doubles: the centre of a cell is found in that cell. *)
From Verif Require Import Base VoxelModel VoxelProofs VoxelGeom VoxelGeomProofs VoxelFloat DynGridFloat VoxelMakeModel.
From Flocq Require Import IEEE754.Bits IEEE754.Binary Core Relative Plus_error.
From Coq Require Import Reals Lra Psatz.
Local Instance P53 : Prec_gt_0 53 := eq_refl.
Local Instance VE : Valid_exp (SpecFloat.fexp 53 1024) := BinarySingleNaN.fexp_correct 53 1024 eq_refl.
Notation B := (B2R 53 1024).
Notation fin := (is_finite 53 1024).
Open Scope R_scope.

Lemma sum_rel x y : generic_format radix2 (SpecFloat.fexp 53 1024) x -> generic_format radix2 (SpecFloat.fexp 53 1024) y ->
  exists e, Rabs e <= b (-53) /\ rndN (x + y) = (x + y) * (1 + e).
Proof.
  intros X Y. destruct (FLT_plus_error_N_ex radix2 (-1074) 53 (fun x => negb (Z.even x)) x y X Y) as (e & A & E).
  exists e. split; [|exact E]. eapply Rle_trans; [exact A|].
  assert (U : u_ro radix2 53 = b (-53)).
  { rewrite (b_opaque (-53)). unfold u_ro. change (bpow radix2 (-53)) with (bpow radix2 (-1 + -52)). rewrite (bpow_plus radix2 (-1) (-52)). reflexivity. }
  rewrite U. pose proof (b_pos (-53)). apply Rmult_le_reg_r with (1 + b (-53)); [lra|]. unfold Rdiv. rewrite Rmult_assoc, Rinv_l by lra. nra.
Qed.
Lemma plus_rel x y : fin x = true -> fin y = true -> Rabs (B x + B y) <= b 1023 ->
  exists e, Rabs e <= b (-53) /\ fin (b64_plus NE x y) = true /\ B (b64_plus NE x y) = (B x + B y) * (1 + e).
Proof.
  intros FX FY U. destruct (sum_rel (B x) (B y)) as (e & A & E); try apply generic_format_B2R. exists e. split; auto.
  pose proof (Bplus_correct 53 1024 eq_refl eq_refl binop_nan_pl64 NE x y FX FY) as H.
  change (BinarySingleNaN.round_mode NE) with ZnearestE in H. rewrite E in H. change (bpow radix2 1024) with (b 1024) in H.
  rewrite Rlt_bool_true in H by (apply rel_lt; auto). destruct H as (H1 & H2 & _). split; [exact H2|exact H1].
Qed.
Lemma minus_rel x y : fin x = true -> fin y = true -> Rabs (B x - B y) <= b 1023 ->
  exists e, Rabs e <= b (-53) /\ fin (b64_minus NE x y) = true /\ B (b64_minus NE x y) = (B x - B y) * (1 + e).
Proof.
  intros FX FY U. destruct (sum_rel (B x) (- B y)) as (e & A & E); try apply generic_format_opp; try apply generic_format_B2R. exists e. split; auto.
  pose proof (Bminus_correct 53 1024 eq_refl eq_refl binop_nan_pl64 NE x y FX FY) as H.
  change (BinarySingleNaN.round_mode NE) with ZnearestE in H. unfold Rminus in H. rewrite E in H. change (bpow radix2 1024) with (b 1024) in H.
  rewrite Rlt_bool_true in H by (apply rel_lt; auto). destruct H as (H1 & H2 & _). split; [exact H2|exact H1].
Qed.
Lemma not_lt x y : fin x = true -> fin y = true -> B y <= B x -> f_lt x y = false.
Proof.
  intros FX FY L. unfold f_lt, b64_compare. rewrite Bcompare_correct by auto. destruct (Rcompare_spec (B x) (B y)); auto. lra.
Qed.
Lemma two_sided e u : Rabs e <= u -> - u <= e <= u.
Proof. intros A. pose proof (Rle_abs e). pose proof (Rle_abs (- e)) as Q. rewrite Rabs_Ropp in Q. lra. Qed.
Lemma b_45 : b 45 = IZR (2 ^ 45).
Proof. rewrite (b_opaque 45), <- (IZR_Zpower radix2) by discriminate. reflexivity. Qed.
Lemma b_6 : b (-6) = / 64.
Proof. rewrite (b_opaque (-6)). reflexivity. Qed.

(** The centre of cell [i] in grid coordinates (GetIndexLocationInGrid), one axis. *)
Definition axis_centre (base cell : fl) (i : Z) : fl := b64_plus NE base (b64_mult NE cell (b64_plus NE (f_of_Z i) f_half)).

Lemma centre_axis base cell n i : fin base = true -> fin cell = true -> b (-900) <= B cell <= b 900 -> Rabs (B base) <= b 45 * B cell ->
  (0 <= i < n)%Z -> (n <= 2 ^ 45)%Z ->
  let q := axis_centre base cell i in let l := b64_minus NE q base in
  fin q = true /\ Rabs (B q - (B base + B cell * (IZR i + / 2))) <= b (-52) * (Rabs (B base) + B cell * (IZR i + 1)) /\
  f_lt l f_zero = false /\ f_lt (b64_mult NE cell (f_of_Z n)) l = false /\ f_to_int64 (b64_div NE l cell) = Ok i.
Proof.
  intros FB FC (CL & CU) HB Hi Hn. cbv zeta. pose proof (b_pos (-900)) as P900. assert (C0 : 0 < B cell) by lra.
  set (c := B cell) in *. set (h := IZR i + / 2). set (u := b (-53)).
  assert (u0 : 0 < u) by apply b_pos.
  assert (Ku : b 45 * u * 4 = / 64).
  { unfold u. rewrite <- b_6. change 4 with (bpow radix2 2). rewrite <- (b_opaque 2), <- !b_add. reflexivity. }
  assert (P : 0 <= IZR i) by (apply IZR_le; lia).
  assert (HK : h <= b 45 - / 2).
  { unfold h. rewrite b_45. assert (IZR i <= IZR (2 ^ 45) - 1) by (rewrite <- minus_IZR; apply IZR_le; lia). lra. }
  assert (K1 : 1 <= b 45) by (rewrite b_45; apply IZR_le; discriminate).
  assert (HP : / 2 <= h) by (unfold h; lra).
  assert (u1 : u <= / 256) by nra.
  assert (BIG : b 45 * c <= b 945) by (replace (b 945) with (b 45 * b 900) by (rewrite <- b_add; reflexivity); nra).
  assert (BIGGER : 8 * b 945 <= b 1023).
  { change 8 with (bpow radix2 3). rewrite <- (b_opaque 3), <- b_add. apply b_le. discriminate. }
  (* cell * (i + 0.5) *)
  destruct (idx_half_exact i ltac:(lia)) as (F1 & B1). fold h in B1.
  destruct (mult_rel cell (b64_plus NE (f_of_Z i) f_half) FC F1) as (e1 & A1 & F2 & B2).
  { rewrite B1, Rabs_pos_eq by (apply Rmult_le_pos; fold c; lra). fold c. split.
    - apply Rle_trans with (b (-900) * b (-1)); [rewrite <- b_add; apply b_le; discriminate|].
      apply Rmult_le_compat; auto; try (left; apply b_pos).
    - pose proof (b_pos 945). nra. }
  rewrite B1 in B2. fold c in B2. set (pf := b64_mult NE cell (b64_plus NE (f_of_Z i) f_half)) in *.
  fold u in A1. apply two_sided in A1.
  assert (PB : 0 <= B pf <= 2 * (b 45 * c)).
  { rewrite B2. assert (H1 : 0 <= c * h <= b 45 * c) by nra. nra. }
  pose proof (two_sided _ _ HB) as HB2.
  (* base + ... *)
  destruct (plus_rel base pf FB F2) as (e2 & A2 & F3 & B3).
  { apply Rabs_le. lra. }
  fold u in A2. apply two_sided in A2. unfold axis_centre. fold pf. set (q := b64_plus NE base pf) in *.
  assert (QE : B q - (B base + c * h) = c * h * e1 + e2 * (B base + B pf)) by (rewrite B3, B2; ring).
  assert (ER : Rabs (c * h * e1 + e2 * (B base + B pf)) <= 2 * u * (Rabs (B base) + c * (IZR i + 1))).
  { assert (T1 : Rabs (c * h * e1) <= c * h * u).
    { rewrite Rabs_mult, (Rabs_pos_eq (c * h)) by nra. apply Rmult_le_compat_l; [nra|]. apply Rabs_le. lra. }
    assert (T2 : Rabs (e2 * (B base + B pf)) <= u * (Rabs (B base) + c * h * (1 + u))).
    { rewrite Rabs_mult. apply Rmult_le_compat; try apply Rabs_pos; [apply Rabs_le; lra|].
      eapply Rle_trans; [apply Rabs_triang|]. apply Rplus_le_compat_l. rewrite Rabs_pos_eq by lra. rewrite B2. nra. }
    pose proof (Rabs_triang (c * h * e1) (e2 * (B base + B pf))) as T3. pose proof (Rabs_pos (B base)).
    assert (h * u <= 1) by nra.
    assert (X : h * u + u * (h * (1 + u)) <= 2 * u * (IZR i + 1)).
    { replace (h * u + u * (h * (1 + u))) with (u * (2 * h + h * u)) by ring. replace (2 * u * (IZR i + 1)) with (u * (2 * IZR i + 2)) by ring.
      apply Rmult_le_compat_l; [lra|]. unfold h in *. lra. }
    assert (Y : c * h * u + u * (c * h * (1 + u)) <= 2 * u * (c * (IZR i + 1))).
    { replace (c * h * u + u * (c * h * (1 + u))) with (c * (h * u + u * (h * (1 + u)))) by ring.
      replace (2 * u * (c * (IZR i + 1))) with (c * (2 * u * (IZR i + 1))) by ring. apply Rmult_le_compat_l; lra. }
    assert (Z0 : 0 <= u * Rabs (B base)) by nra. lra. }
  assert (U2 : 2 * u = b (-52)).
  { unfold u. change 2 with (bpow radix2 1). rewrite <- (b_opaque 1), <- b_add. reflexivity. }
  split; [exact F3|]. split; [rewrite QE, <- U2; exact ER|].
  (* - base *)
  assert (ER2 : Rabs (B q - (B base + c * h)) <= c * / 64).
  { rewrite QE. eapply Rle_trans; [exact ER|]. assert (IZR i + 1 <= b 45) by (unfold h in HK; lra).
    assert (Rabs (B base) + c * (IZR i + 1) <= 2 * (b 45 * c)) by nra. rewrite <- Ku. nra. }
  apply two_sided in ER2.
  assert (CH : 0 < c * h <= b 45 * c - c * / 2) by nra.
  destruct (minus_rel q base F3 FB) as (e3 & A3 & F4 & B4).
  { apply Rabs_le. lra. }
  fold u in A3. apply two_sided in A3. set (l := b64_minus NE q base) in *.
  assert (L : c * (h - / 32) <= B l <= c * (h + / 32)).
  { rewrite B4. set (d := B q - B base) in *. assert (D : c * h - c * / 64 <= d <= c * h + c * / 64) by (unfold d; lra).
    assert (DK : d <= b 45 * c) by lra. assert (d * u <= c * / 64) by nra.
    assert (0 < d) by nra. nra. }
  assert (L0 : 0 < B l) by nra.
  split; [apply not_lt; auto; change (B f_zero) with 0; lra|].
  (* cell * n *)
  destruct (of_Z_exact n ltac:(lia)) as (FN & BN).
  assert (N1 : IZR i + 1 <= IZR n) by (rewrite <- plus_IZR; apply IZR_le; lia).
  assert (N2 : IZR n <= b 45) by (rewrite b_45; apply IZR_le; lia).
  destruct (mult_rel cell (f_of_Z n) FC FN) as (e5 & A5 & F5 & B5).
  { rewrite BN. fold c. rewrite Rabs_pos_eq by nra. split.
    - apply Rle_trans with (b (-900)); [apply b_le; discriminate|]. nra.
    - nra. }
  fold u in A5. apply two_sided in A5. rewrite BN in B5. fold c in B5.
  split.
  { apply not_lt; auto. rewrite B5. assert (IZR n * u <= / 64) by nra.
    assert (c * IZR n * (1 + e5) >= c * (IZR n - / 64)).
    { apply Rle_ge. rewrite Rmult_assoc. apply Rmult_le_compat_l; [lra|]. nra. }
    unfold h in L. nra. }
  (* / cell *)
  destruct (div_rel l cell F4) as (e4 & A4 & F6 & B6).
  { fold c. lra. }
  { fold c. assert (Q : h - / 32 <= B l / c <= h + / 32).
    { split; [apply Rmult_le_reg_r with c|apply Rmult_le_reg_r with c]; try lra; unfold Rdiv; rewrite Rmult_assoc, Rinv_l by lra; lra. }
    rewrite Rabs_pos_eq by lra. split.
    - apply Rle_trans with (b (-2)); [apply b_le; discriminate|]. rewrite (b_opaque (-2)). change (bpow radix2 (-2)) with (/ 4). lra.
    - apply Rle_trans with (b 46); [|apply b_le; discriminate]. assert (b 46 = 2 * b 45). { change 2 with (bpow radix2 1). rewrite <- (b_opaque 1), <- b_add. reflexivity. } lra. }
  fold u in A4. apply two_sided in A4. fold c in B6.
  assert (Q : h - / 32 <= B l / c <= h + / 32).
  { split; [apply Rmult_le_reg_r with c|apply Rmult_le_reg_r with c]; try lra; unfold Rdiv; rewrite Rmult_assoc, Rinv_l by lra; lra. }
  assert (V : IZR i <= B (b64_div NE l cell) < IZR i + 1).
  { rewrite B6. assert ((B l / c) * u <= / 64) by nra. unfold h in *. nra. }
  unfold f_to_int64. rewrite F6.
  assert (T : Btrunc 53 1024 (b64_div NE l cell) = i).
  { apply eq_IZR. rewrite Btrunc_correct by reflexivity. rewrite round_FIX_IZR. f_equal. apply trunc_pos; [lia|exact V]. }
  rewrite T. apply ck_ok. unfold int64_min, int64_max. lia.
Qed.
