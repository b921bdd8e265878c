(** Rounding in InterpolateColor: lemmas on real numbers for RgbaProps. *)
From Coq Require Import ZArith Znumtheory Zpow_facts Bool Reals Lra Lia Psatz.
From Flocq Require Import Core Relative Mult_error.
Open Scope R_scope.

Notation fexp32 := (FLT_exp (-149) 24).
Notation fexp64 := (FLT_exp (-1074) 53).
Notation rnd32 := (round radix2 fexp32 ZnearestE).
Notation rnd64 := (round radix2 fexp64 ZnearestE).
Notation F32 := (generic_format radix2 fexp32).
Notation F64 := (generic_format radix2 fexp64).
Local Instance p24 : Prec_gt_0 24 := eq_refl.
Local Instance p53 : Prec_gt_0 53 := eq_refl.
Notation "2^ e" := (bpow radix2 e) (at level 5, e at level 0, format "2^ e").

(** One channel of InterpolateColor. *)
Definition mixR (a b t : R) : R := rnd32 (rnd64 (rnd64 (a * rnd64 (1 - t)) + rnd32 (b * t))).

Lemma wide x : F32 x -> F64 x.
Proof. intros H. apply (generic_inclusion_mag radix2 fexp32); auto. intros _. unfold FLT_exp. lia. Qed.
Lemma F1 : F32 1.
Proof. change 1 with 2^0. apply generic_format_bpow. unfold FLT_exp. lia. Qed.

Lemma rnd64_le x y : x <= y -> rnd64 x <= rnd64 y. Proof. apply round_le; typeclasses eauto. Qed.
Lemma rnd32_le x y : x <= y -> rnd32 x <= rnd32 y. Proof. apply round_le; typeclasses eauto. Qed.
Lemma rnd64_id x : F64 x -> rnd64 x = x. Proof. apply round_generic; typeclasses eauto. Qed.
Lemma rnd32_id x : F32 x -> rnd32 x = x. Proof. apply round_generic; typeclasses eauto. Qed.
Lemma rnd64_0 : rnd64 0 = 0. Proof. apply round_0; typeclasses eauto. Qed.
Lemma rnd32_0 : rnd32 0 = 0. Proof. apply round_0; typeclasses eauto. Qed.

Lemma mixR_le a a' b b' t : 0 <= t <= 1 -> a <= a' -> b <= b' -> mixR a b t <= mixR a' b' t.
Proof.
  intros T A B. apply rnd32_le, rnd64_le, Rplus_le_compat; [apply rnd64_le|apply rnd32_le]; apply Rmult_le_compat_r; auto; [|lra].
  rewrite <- rnd64_0. apply rnd64_le. lra.
Qed.
Lemma mixR_0 a b : F32 a -> mixR a b 0 = a.
Proof.
  intros A. unfold mixR. rewrite Rmult_0_r, rnd32_0, Rminus_0_r, Rplus_0_r, (rnd64_id 1), Rmult_1_r by apply wide, F1. rewrite !(rnd64_id a) by (apply wide; auto). apply rnd32_id; auto.
Qed.
Lemma mixR_1 a b : F32 b -> mixR a b 1 = b.
Proof.
  intros B. unfold mixR. rewrite Rminus_diag_eq, rnd64_0, Rmult_0_r, rnd64_0, Rplus_0_l, Rmult_1_r, (rnd32_id b) by auto. rewrite rnd64_id by (apply wide; auto). apply rnd32_id; auto.
Qed.
Lemma mixR_00 t : mixR 0 0 t = 0.
Proof. unfold mixR. rewrite !Rmult_0_l, rnd64_0, rnd32_0, Rplus_0_l, rnd64_0. apply rnd32_0. Qed.

(** Errors. *)
Lemma err64 x : Rabs x <= 2 -> Rabs (rnd64 x - x) <= 2^(-52).
Proof.
  intros H. destruct (Req_dec x 0) as [->|N]; [rewrite rnd64_0, Rminus_0_r, Rabs_R0; apply bpow_ge_0|].
  eapply Rle_trans; [apply error_le_half_ulp; typeclasses eauto|]. rewrite ulp_neq_0 by auto. unfold cexp.
  assert (M : (mag radix2 x <= 2)%Z) by (apply mag_le_bpow; auto; change 2^2 with 4; lra).
  assert (X : 2^(fexp64 (mag radix2 x)) <= 2^(-51)) by (apply bpow_le; unfold FLT_exp; lia).
  replace 2^(-51) with (2 * 2^(-52)) in X by (change 2 with 2^1; rewrite <- bpow_plus; reflexivity). lra.
Qed.
Lemma err32 x : Rabs x <= 2 -> Rabs (rnd32 x - x) <= 2^(-23).
Proof.
  intros H. destruct (Req_dec x 0) as [->|N]; [rewrite rnd32_0, Rminus_0_r, Rabs_R0; apply bpow_ge_0|].
  eapply Rle_trans; [apply error_le_half_ulp; typeclasses eauto|]. rewrite ulp_neq_0 by auto. unfold cexp.
  assert (M : (mag radix2 x <= 2)%Z) by (apply mag_le_bpow; auto; change 2^2 with 4; lra).
  assert (X : 2^(fexp32 (mag radix2 x)) <= 2^(-22)) by (apply bpow_le; unfold FLT_exp; lia).
  replace 2^(-22) with (2 * 2^(-23)) in X by (change 2 with 2^1; rewrite <- bpow_plus; reflexivity). lra.
Qed.
(** Relative errors in doubles, away from underflow. *)
Lemma rel64 x : x = 0 \/ 2^(-1000) <= Rabs x -> Rabs (rnd64 x - x) <= 2^(-53) * Rabs x.
Proof.
  intros [->|H]; [rewrite rnd64_0, Rminus_0_r, Rabs_R0; lra|].
  eapply Rle_trans; [apply relative_error_N_FLT; [reflexivity|]|].
  - eapply Rle_trans; [|exact H]. apply bpow_le. lia.
  - apply Rmult_le_compat_r; [apply Rabs_pos|]. change (/ 2) with 2^(-1). rewrite <- bpow_plus. apply bpow_le. lia.
Qed.

(** A number of format 24 that is at least 2^-100: mantissa and exponent. *)
Lemma decompose c : F32 c -> 2^(-100) <= c -> exists M e, c = IZR M * 2^(e - 23) /\ (2 ^ 23 <= M < 2 ^ 24)%Z /\ (-100 <= e)%Z /\ 2^e <= c < 2^(e + 1) /\ fexp32 (mag radix2 c) = (e - 23)%Z.
Proof.
  intros F L. assert (P : 0 < c) by (eapply Rlt_le_trans; [apply bpow_gt_0|exact L]).
  pose proof (bpow_mag_le radix2 c (Rgt_not_eq _ _ P)) as K1. pose proof (bpow_mag_gt radix2 c) as K2. rewrite Rabs_pos_eq in K1, K2 by lra.
  remember (mag_val radix2 c (mag radix2 c)) as k eqn:EK. assert (K : 2^(k - 1) <= c < 2^k) by lra. clear K1 K2.
  assert (LO : (-100 < k)%Z) by (apply (lt_bpow radix2); lra).
  assert (FE : fexp32 k = (k - 24)%Z) by (unfold FLT_exp; lia).
  exists (Ztrunc (scaled_mantissa radix2 fexp32 c)), (k - 1)%Z. replace (k - 1 - 23)%Z with (k - 24)%Z by lia. replace (k - 1 + 1)%Z with k by lia.
  assert (E : c = IZR (Ztrunc (scaled_mantissa radix2 fexp32 c)) * 2^(k - 24)).
  { unfold generic_format in F. rewrite F at 1. unfold F2R, cexp. cbn [Fnum Fexp]. rewrite <- EK, FE. reflexivity. }
  split; [exact E|]. split; [|split; [lia|split; [lra|exact FE]]]. set (M := Ztrunc _) in *.
  assert (Q : 0 < 2^(k - 24)) by apply bpow_gt_0.
  assert (D : 2^(k - 1) = IZR (2 ^ 23) * 2^(k - 24)) by (change (IZR (2 ^ 23)) with 2^23; rewrite <- bpow_plus; f_equal; lia).
  assert (U : 2^k = IZR (2 ^ 24) * 2^(k - 24)) by (change (IZR (2 ^ 24)) with 2^24; rewrite <- bpow_plus; f_equal; lia).
  rewrite D, U in K. rewrite E in K. destruct K as [K1 K2]. apply Rmult_le_reg_r in K1; auto. apply Rmult_lt_reg_r in K2; auto. apply le_IZR in K1. apply lt_IZR in K2. lia.
Qed.
(** Numbers of format 24 from 1/2 to 1 are multiples of 2^-24. *)
Lemma upper_half t : F32 t -> / 2 <= t <= 1 -> exists k, t = IZR k * 2^(-24) /\ (2 ^ 23 <= k <= 2 ^ 24)%Z.
Proof.
  intros F T. destruct (decompose t F) as (M & e & E & MR & _ & B & _).
  - apply Rle_trans with 2^(-1); [apply bpow_le; lia|]. change 2^(-1) with (/ 2). lra.
  - assert (e < 1)%Z by (apply (lt_bpow radix2); change 2^1 with 2; lra). assert (-1 < e + 1)%Z by (apply (lt_bpow radix2); change 2^(-1) with (/ 2); lra).
    assert (e = -1 \/ e = 0)%Z as [->| ->] by lia.
    + exists M. split; [exact E|lia].
    + assert (M = 2 ^ 23)%Z as ->.
      { change (0 - 23)%Z with (-23)%Z in E. assert (IZR M <= IZR (2 ^ 23)); [|apply le_IZR in H1; lia].
        apply Rmult_le_reg_r with 2^(-23); [apply bpow_gt_0|]. rewrite <- E. change (IZR (2 ^ 23)) with 2^23. rewrite <- bpow_plus. change 2^(23 + -23) with 1. lra. }
      exists (2 ^ 24)%Z. split; [|lia]. rewrite E. change (IZR (2 ^ 23)) with 2^23. change (IZR (2 ^ 24)) with 2^24. rewrite <- !bpow_plus. reflexivity.
Qed.
Lemma F64_int n e : (Z.abs n < 2 ^ 53)%Z -> (-1074 <= e)%Z -> F64 (IZR n * 2^e).
Proof. intros A C. apply generic_format_FLT. exists (Float radix2 n e); auto. Qed.

(** c again, from a sum that is near it. *)
Lemma near32 c e s : F32 c -> 2^e <= c < 2^(e + 1) -> (-100 <= e)%Z -> Rabs (s - c) < 2^(e - 24) -> (c = 2^e -> Rabs (s - c) < 2^(e - 25)) -> rnd32 s = c.
Proof.
  intros F B LE N NP. assert (P := bpow_gt_0 radix2 e).
  assert (U : ulp radix2 fexp32 c = 2^(e - 23)).
  { rewrite ulp_neq_0 by lra. unfold cexp. rewrite (mag_unique radix2 c (e + 1)); [f_equal; unfold FLT_exp; lia|]. rewrite Rabs_pos_eq by lra. replace (e + 1 - 1)%Z with e by lia. lra. }
  assert (Q : 2^(e - 23) = 2 * 2^(e - 24)) by (change 2 with 2^1; rewrite <- bpow_plus; f_equal; lia).
  assert (G := bpow_gt_0 radix2 (e - 24)). apply Rabs_def2 in N as [N1 N2]. apply Rle_antisym.
  - apply round_N_le_midp; auto; try typeclasses eauto. rewrite succ_eq_pos by lra. lra.
  - apply round_N_ge_midp; auto; try typeclasses eauto. rewrite pred_eq_pos by lra. unfold pred_pos. destruct (Req_bool_spec c 2^(mag radix2 c - 1)) as [E|E]; [|lra].
    assert (M : mag radix2 c = (e + 1)%Z :> Z) by (apply mag_unique; rewrite Rabs_pos_eq by lra; replace (e + 1 - 1)%Z with e by lia; lra). rewrite M in *.
    replace (e + 1 - 1)%Z with e in * by lia. specialize (NP E). apply Rabs_def2 in NP as [NP1 NP2].
    replace (fexp32 e) with (e - 24)%Z by (unfold FLT_exp; lia).
    assert (2^(e - 24) = 2 * 2^(e - 25)) by (change 2 with 2^1; rewrite <- bpow_plus; f_equal; lia). lra.
Qed.

(** The errors in doubles together. *)
Lemma doubles c e t r : F32 c -> 2^e <= c < 2^(e + 1) -> (-100 <= e)%Z -> F32 t -> 0 <= t <= 1 -> 0 <= r <= c -> Rabs (r - c * t) <= 2^(e - 24) ->
  Rabs (rnd64 (rnd64 (c * rnd64 (1 - t)) + r) - c) <= Rabs (r - c * t) + 2^(e - 50).
Proof.
  intros FC C LE FT T R RT. set (u := 2^(e - 53)). assert (UP : 0 < u) by apply bpow_gt_0.
  assert (C54 : c * 2^(-53) <= 2 * u).
  { apply Rle_trans with (2^(e + 1) * 2^(-53)); [apply Rmult_le_compat_r; [apply bpow_ge_0|lra]|]. unfold u. change 2 with 2^1. rewrite <- !bpow_plus. apply bpow_le. lia. }
  assert (E50 : 2^(e - 50) = 8 * u) by (unfold u; change 8 with 2^3; rewrite <- bpow_plus; f_equal; lia).
  assert (CP : 0 < c) by (pose proof (bpow_gt_0 radix2 e); lra).
  assert (T24 : t = 1 \/ 2^(-24) <= 1 - t).
  { destruct (Req_dec t 1) as [|NT]; [auto|right]. destruct (Rle_dec (/ 2) t) as [H|H].
    - destruct (upper_half t FT) as (k & E & K); [lra|]. rewrite E.
      assert (k <> 2 ^ 24)%Z. { intros ->. apply NT. rewrite E. change (IZR (2 ^ 24)) with 2^24. rewrite <- bpow_plus. reflexivity. }
      replace (1 - IZR k * 2^(-24)) with (IZR (2 ^ 24 - k) * 2^(-24)).
      + rewrite <- (Rmult_1_l 2^(-24)) at 1. apply Rmult_le_compat_r; [apply bpow_ge_0|]. apply IZR_le. lia.
      + rewrite minus_IZR, Rmult_minus_distr_r. change (IZR (2 ^ 24)) with 2^24. rewrite <- bpow_plus. reflexivity.
    - apply Rle_trans with 2^(-1); [apply bpow_le; lia|]. change 2^(-1) with (/ 2). lra. }
  set (d := rnd64 (1 - t)).
  assert (D01 : 0 <= d <= 1).
  { split; [rewrite <- rnd64_0; apply rnd64_le; lra|]. rewrite <- (rnd64_id 1) by apply wide, F1. apply rnd64_le. lra. }
  assert (DE : Rabs (d - (1 - t)) <= 2^(-53)).
  { eapply Rle_trans; [apply rel64|].
    - destruct T24 as [->|H]; [left; lra|right]. rewrite Rabs_pos_eq by lra. eapply Rle_trans; [|exact H]. apply bpow_le. lia.
    - rewrite Rabs_pos_eq by lra. rewrite <- (Rmult_1_r 2^(-53)) at 2. apply Rmult_le_compat_l; [apply bpow_ge_0|lra]. }
  assert (D0 : d = 0 \/ 2^(-25) <= d).
  { destruct T24 as [->|H]; [left; unfold d; rewrite Rminus_diag_eq by auto; apply rnd64_0|right].
    assert (2^(-24) = 2 * 2^(-25)) by (change 2 with 2^1; rewrite <- bpow_plus; reflexivity). assert (2^(-53) <= 2^(-25)) by (apply bpow_le; lia). apply Rabs_le_inv in DE. lra. }
  set (p := rnd64 (c * d)).
  assert (PE : Rabs (p - c * d) <= 2 * u).
  { eapply Rle_trans; [apply rel64|].
    - destruct D0 as [->|H]; [left; lra|right]. rewrite Rabs_pos_eq by nra. apply Rle_trans with (2^e * 2^(-25)); [rewrite <- bpow_plus; apply bpow_le; lia|].
      apply Rmult_le_compat; try apply bpow_ge_0; lra.
    - rewrite Rabs_pos_eq by nra. assert (0 < 2^(-53)) by apply bpow_gt_0. assert (c * d <= c * 1) by (apply Rmult_le_compat_l; lra). assert (2^(-53) * (c * d) <= 2^(-53) * c) by (apply Rmult_le_compat_l; lra). lra. }
  assert (P01 : 0 <= p <= c).
  { split; [rewrite <- rnd64_0; apply rnd64_le; nra|]. rewrite <- (rnd64_id c) by (apply wide; auto). apply rnd64_le. rewrite <- (Rmult_1_r c) at 2. apply Rmult_le_compat_l; lra. }
  assert (CD : Rabs (c * d - c * (1 - t)) <= 2 * u).
  { rewrite <- Rmult_minus_distr_l, Rabs_mult, (Rabs_pos_eq c) by lra. assert (c * Rabs (d - (1 - t)) <= c * 2^(-53)) by (apply Rmult_le_compat_l; lra). lra. }
  assert (E24 : 2^(e - 24) = 2^29 * u) by (unfold u; rewrite <- bpow_plus; f_equal; lia).
  assert (E0 : 2^e = 2^53 * u) by (unfold u; rewrite <- bpow_plus; f_equal; lia).
  change 2^29 with 536870912 in E24. change 2^53 with 9007199254740992 in E0.
  assert (PR : Rabs (p + r - c) <= Rabs (r - c * t) + 4 * u).
  { replace (p + r - c) with ((p - c * d) + ((c * d - c * (1 - t)) + (r - c * t))) by ring.
    eapply Rle_trans; [apply Rabs_triang|]. eapply Rle_trans; [apply Rplus_le_compat; [exact PE|apply Rabs_triang]|]. lra. }
  assert (LOW : 2^(-1000) <= p + r).
  { apply Rabs_le_inv in PR. apply Rle_trans with (4 * u); [|lra]. unfold u. change 4 with 2^2. rewrite <- bpow_plus. apply bpow_le. lia. }
  assert (SE : Rabs (rnd64 (p + r) - (p + r)) <= 4 * u).
  { eapply Rle_trans; [apply rel64; right; rewrite Rabs_pos_eq by lra; exact LOW|]. rewrite Rabs_pos_eq by lra.
    assert (0 < 2^(-53)) by apply bpow_gt_0. assert (2^(-53) * (p + r) <= 2^(-53) * (2 * c)) by (apply Rmult_le_compat_l; lra). lra. }
  replace (rnd64 (p + r) - c) with ((rnd64 (p + r) - (p + r)) + (p + r - c)) by ring. eapply Rle_trans; [apply Rabs_triang|]. lra.
Qed.

Lemma nearestE_half M : Z.even M = true -> ZnearestE (IZR M + / 2) = M /\ ZnearestE (IZR M - / 2) = M.
Proof.
  intros E. split.
  - unfold Znearest. rewrite (Zfloor_imp M) by (rewrite plus_IZR; lra). rewrite Rcompare_Eq by lra. rewrite E. reflexivity.
  - unfold Znearest. rewrite (Zfloor_imp (M - 1)) by (rewrite plus_IZR, !minus_IZR; lra). rewrite Rcompare_Eq by (rewrite minus_IZR; lra).
    replace (Z.even (M - 1)) with false by (rewrite Z.even_sub, E; reflexivity). cbn. rewrite (Zceil_imp M); auto. rewrite minus_IZR. lra.
Qed.
Lemma odd_divides M k : Z.even M = false -> (2 ^ 23 | M * k)%Z -> (2 ^ 23 | k)%Z.
Proof.
  intros O D. apply Gauss with M; auto. apply rel_prime_sym. apply rel_prime_Zpower_r; [lia|]. apply rel_prime_sym. apply prime_rel_prime; [apply prime_2|].
  intros (q & ->). rewrite Z.even_mul in O. cbn in O. rewrite orb_true_r in O. discriminate.
Qed.

(** A channel mixed with itself is itself. *)
Lemma mixR_same c t : F32 c -> c = 0 \/ 2^(-100) <= c -> F32 t -> 0 <= t <= 1 -> mixR c c t = c.
Proof.
  intros FC [->|L] FT T; [apply mixR_00|]. destruct (decompose c FC L) as (M & e & EC & MR & LE & C & _).
  assert (CP : 0 < c) by (pose proof (bpow_gt_0 radix2 e); lra).
  set (r := rnd32 (c * t)). assert (R01 : 0 <= r <= c).
  { split; [rewrite <- rnd32_0; apply rnd32_le; nra|]. rewrite <- (rnd32_id c) by auto. apply rnd32_le. nra. }
  assert (X25 : 2^(e - 24) = 2 * 2^(e - 25)) by (change 2 with 2^1; rewrite <- bpow_plus; f_equal; lia).
  assert (X50 : 2^(e - 50) < 2^(e - 26)) by (apply bpow_lt; lia). assert (X26 : 2^(e - 25) = 2 * 2^(e - 26)) by (change 2 with 2^1; rewrite <- bpow_plus; f_equal; lia). assert (G26 := bpow_gt_0 radix2 (e - 26)).
  destruct (Rlt_le_dec (c * t) 2^e) as [A|B].
  - (* the product is in a lower binade *)
    assert (RE : Rabs (r - c * t) <= 2^(e - 25)).
    { destruct (Req_dec (c * t) 0) as [Z|NZ]; [unfold r; rewrite Z, rnd32_0, Rminus_0_r, Rabs_R0; apply bpow_ge_0|].
      eapply Rle_trans; [apply error_le_half_ulp; typeclasses eauto|]. rewrite ulp_neq_0 by auto. unfold cexp.
      assert (MG : (mag radix2 (c * t) <= e)%Z) by (apply mag_le_bpow; auto; rewrite Rabs_pos_eq by nra; auto).
      assert (Y : 2^(fexp32 (mag radix2 (c * t))) <= 2^(e - 24)) by (apply bpow_le; unfold FLT_exp; lia). lra. }
    unfold mixR. fold r. pose proof (doubles c e t r FC C LE FT T R01 ltac:(lra)) as D.
    apply near32 with e; auto; [lra|]. intros PW.
    assert (RE' : Rabs (r - c * t) <= 2^(e - 50)); [|assert (2^(e - 50) <= 2^(e - 27)) by (apply bpow_le; lia); assert (2^(e - 26) = 2 * 2^(e - 27)) by (change 2 with 2^1; rewrite <- bpow_plus; f_equal; lia); assert (G27 := bpow_gt_0 radix2 (e - 27)); lra].
    destruct (Rle_dec 2^(-126) (c * t)) as [N|S].
    + (* exact *)
      unfold r. rewrite rnd32_id; [rewrite Rminus_diag_eq, Rabs_R0 by auto; apply bpow_ge_0|]. rewrite PW in *.
      assert (TN : t <> 0) by (intros ->; rewrite Rmult_0_r in N; pose proof (bpow_gt_0 radix2 (-126)); lra).
      apply generic_format_FLT_FLX; [rewrite Rabs_pos_eq by nra; exact N|]. rewrite Rmult_comm. apply mult_bpow_exact_FLX. apply generic_format_FLX_FLT with (-149)%Z. auto.
    + destruct (Req_dec (c * t) 0) as [Z|NZ]; [unfold r; rewrite Z, rnd32_0, Rminus_0_r, Rabs_R0; apply bpow_ge_0|].
      eapply Rle_trans; [apply error_le_half_ulp; typeclasses eauto|]. rewrite ulp_neq_0 by auto. unfold cexp.
      assert (MG : (mag radix2 (c * t) <= -126)%Z) by (apply mag_le_bpow; auto; rewrite Rabs_pos_eq by nra; lra).
      assert (Y : 2^(fexp32 (mag radix2 (c * t))) <= 2^(e - 49)) by (apply bpow_le; unfold FLT_exp; lia).
      assert (2^(e - 49) = 2 * 2^(e - 50)) by (change 2 with 2^1; rewrite <- bpow_plus; f_equal; lia). lra.
  - (* the same binade: everything up to the last rounding is exact *)
    assert (TH : / 2 <= t).
    { apply Rnot_lt_le. intros H. assert (c * t <= c * / 2) by (apply Rmult_le_compat_l; lra). assert (2^(e + 1) = 2 * 2^e) by (change 2 with 2^1; rewrite <- bpow_plus; f_equal; lia). lra. }
    destruct (upper_half t FT) as (k & ET & K); [lra|].
    assert (CT : c * t = IZR (M * k) * 2^(e - 47)). { rewrite EC, ET, mult_IZR. replace (e - 47)%Z with (e - 23 + -24)%Z by lia. rewrite bpow_plus. ring. }
    set (N := ZnearestE (IZR (M * k) * 2^(-24))).
    assert (CT1 : c * t < 2^(e + 1)) by nra.
    assert (ER : r = IZR N * 2^(e - 23)).
    { unfold r, round, F2R, scaled_mantissa, cexp. cbn [Fnum Fexp]. rewrite (mag_unique radix2 (c * t) (e + 1)) by (rewrite Rabs_pos_eq by nra; replace (e + 1 - 1)%Z with e by lia; lra).
      replace (fexp32 (e + 1)) with (e - 23)%Z by (unfold FLT_exp; lia). unfold N. do 3 f_equal. rewrite CT, Rmult_assoc, <- bpow_plus. f_equal. f_equal. lia. }
    assert (NH : Rabs (IZR (N * 2 ^ 24 - M * k)) <= IZR (2 ^ 23)).
    { pose proof (Znearest_half (fun x => negb (Z.even x)) (IZR (M * k) * 2^(-24))) as H. fold N in H. rewrite minus_IZR, mult_IZR.
      replace (IZR N * IZR (2 ^ 24) - IZR (M * k)) with (- (IZR (M * k) * 2^(-24) - IZR N) * IZR (2 ^ 24)).
      - rewrite Rabs_mult, Rabs_Ropp, (Rabs_pos_eq (IZR (2 ^ 24))) by (apply IZR_le; lia). replace (IZR (2 ^ 23)) with (/ 2 * IZR (2 ^ 24)) by lra. apply Rmult_le_compat_r; [apply IZR_le; lia|exact H].
      - change (IZR (2 ^ 24)) with 2^24. ring_simplify. rewrite Rmult_assoc, <- bpow_plus. change 2^(-24 + 24) with 1. ring. }
    rewrite <- abs_IZR in NH. apply le_IZR in NH.
    assert (EM : 2^(e - 23) = IZR (2 ^ 24) * 2^(e - 47)) by (change (IZR (2 ^ 24)) with 2^24; rewrite <- bpow_plus; f_equal; lia).
    assert (S : rnd64 (rnd64 (c * rnd64 (1 - t)) + r) = IZR (M * 2 ^ 24 + (N * 2 ^ 24 - M * k)) * 2^(e - 47)).
    { assert (D : 1 - t = IZR (2 ^ 24 - k) * 2^(-24)) by (rewrite ET, minus_IZR, Rmult_minus_distr_r; change (IZR (2 ^ 24)) with 2^24; rewrite <- bpow_plus; reflexivity).
      rewrite D, (rnd64_id (IZR (2 ^ 24 - k) * 2^(-24))) by (apply F64_int; lia).
      replace (c * (IZR (2 ^ 24 - k) * 2^(-24))) with (IZR (M * (2 ^ 24 - k)) * 2^(e - 47)).
      2:{ rewrite EC, mult_IZR. replace (e - 47)%Z with (e - 23 + -24)%Z by lia. rewrite bpow_plus. ring. }
      rewrite (rnd64_id (IZR (M * (2 ^ 24 - k)) * 2^(e - 47))) by (apply F64_int; [|lia]; assert (0 <= M * (2 ^ 24 - k) <= M * 2 ^ 24)%Z by (split; [apply Z.mul_nonneg_nonneg|apply Z.mul_le_mono_nonneg_l]; lia); lia).
      rewrite ER, EM. replace (IZR (M * (2 ^ 24 - k)) * 2^(e - 47) + IZR N * (IZR (2 ^ 24) * 2^(e - 47))) with (IZR (M * 2 ^ 24 + (N * 2 ^ 24 - M * k)) * 2^(e - 47)).
      - apply rnd64_id. apply F64_int; lia.
      - rewrite !plus_IZR, minus_IZR, !mult_IZR, minus_IZR. ring. }
    unfold mixR. fold r. rewrite S. set (dl := (N * 2 ^ 24 - M * k)%Z) in *.
    assert (PW : c = 2^e -> dl = 0%Z).
    { intros H. assert (t = 1). { apply Rle_antisym; [lra|]. apply Rmult_le_reg_l with c; auto. rewrite Rmult_1_r. lra. }
      assert (k = 2 ^ 24)%Z. { apply eq_IZR. apply Rmult_eq_reg_r with 2^(-24); [|pose proof (bpow_gt_0 radix2 (-24)); lra]. rewrite <- ET, H0. change (IZR (2 ^ 24)) with 2^24. rewrite <- bpow_plus. reflexivity. }
      assert (N = M). { unfold N. rewrite H1, mult_IZR, Rmult_assoc. change (IZR (2 ^ 24)) with 2^24. rewrite <- bpow_plus. change 2^(24 + -24) with 1. rewrite Rmult_1_r. apply Znearest_imp. rewrite Rminus_diag_eq, Rabs_R0 by auto. lra. }
      unfold dl. rewrite H1, H2. lia. }
    assert (SD : IZR (M * 2 ^ 24 + dl) * 2^(e - 47) - c = IZR dl * 2^(e - 47)) by (rewrite EC, EM, plus_IZR, mult_IZR; ring).
    assert (E47 : 2^(e - 24) = IZR (2 ^ 23) * 2^(e - 47)) by (change (IZR (2 ^ 23)) with 2^23; rewrite <- bpow_plus; f_equal; lia).
    assert (G47 := bpow_gt_0 radix2 (e - 47)).
    destruct (Z.eq_dec (Z.abs dl) (2 ^ 23)) as [TIE|NT].
    + assert (EV : Z.even M = true).
      { destruct (Z.even M) eqn:EV; auto. exfalso. assert (DV : (2 ^ 23 | M * k)%Z). { unfold dl in TIE. assert (M * k = 2 ^ 23 * (2 * N + 1) \/ M * k = 2 ^ 23 * (2 * N - 1))%Z as [->| ->] by lia; apply Z.divide_factor_l. }
        apply odd_divides in DV as (q & Q); auto. assert (q = 1 \/ q = 2)%Z as [->| ->] by lia.
        - assert (t = / 2). { rewrite ET, Q, Z.mul_1_l. change (IZR (2 ^ 23)) with 2^23. rewrite <- bpow_plus. reflexivity. }
          assert (c * t < 2^e); [|lra]. rewrite H. assert (2^(e + 1) = 2 * 2^e) by (change 2 with 2^1; rewrite <- bpow_plus; f_equal; lia). lra.
        - unfold dl in TIE. lia. }
      assert (M <> 2 ^ 23)%Z. { intros H. assert (c = 2^e). { rewrite EC, H. change (IZR (2 ^ 23)) with 2^23. rewrite <- bpow_plus. f_equal. lia. } specialize (PW H0). lia. }
      set (s := IZR (M * 2 ^ 24 + dl) * 2^(e - 47)).
      assert (B1 : 2^e = IZR (2 ^ 47) * 2^(e - 47)) by (change (IZR (2 ^ 47)) with 2^47; rewrite <- bpow_plus; f_equal; lia).
      assert (B2 : 2^(e + 1) = IZR (2 ^ 48) * 2^(e - 47)) by (change (IZR (2 ^ 48)) with 2^48; rewrite <- bpow_plus; f_equal; lia).
      assert (SB : 2^e <= s < 2^(e + 1)). { rewrite B1, B2. unfold s. split; [apply Rmult_le_compat_r; [lra|]; apply IZR_le; lia|apply Rmult_lt_compat_r; [lra|]; apply IZR_lt; lia]. }
      unfold round, F2R, scaled_mantissa, cexp. cbn [Fnum Fexp]. rewrite (mag_unique radix2 s (e + 1)) by (pose proof (bpow_gt_0 radix2 e); rewrite Rabs_pos_eq by lra; replace (e + 1 - 1)%Z with e by lia; lra).
      replace (fexp32 (e + 1)) with (e - 23)%Z by (unfold FLT_exp; lia).
      assert (SM : s * 2^(- (e - 23)) = IZR (M * 2 ^ 24 + dl) * 2^(-24)). { unfold s. rewrite Rmult_assoc, <- bpow_plus. f_equal. f_equal. lia. }
      rewrite SM. destruct (nearestE_half M EV) as (H1 & H2). change 2^(-24) with (/ 16777216). rewrite plus_IZR, mult_IZR.
      assert (dl = 2 ^ 23 \/ dl = - 2 ^ 23)%Z as [->| ->] by lia.
      * replace ((IZR M * IZR (2 ^ 24) + IZR (2 ^ 23)) * / 16777216) with (IZR M + / 2) by (change (IZR (2 ^ 24)) with 16777216; change (IZR (2 ^ 23)) with 8388608; field). rewrite H1. auto.
      * replace ((IZR M * IZR (2 ^ 24) + IZR (- 2 ^ 23)) * / 16777216) with (IZR M - / 2) by (change (IZR (2 ^ 24)) with 16777216; change (IZR (- 2 ^ 23)) with (- 8388608); field). rewrite H2. auto.
    + apply near32 with e; auto.
      * rewrite SD, E47, Rabs_mult, (Rabs_pos_eq 2^(e - 47)) by lra. apply Rmult_lt_compat_r; auto. rewrite <- abs_IZR. apply IZR_lt. lia.
      * intros H. rewrite SD, (PW H), Rmult_0_l, Rabs_R0. apply bpow_gt_0.
Qed.
(** How far a channel is from the exact mixture. *)
Lemma err32_1 x : Rabs x <= 1 -> Rabs (rnd32 x - x) <= 2^(-24).
Proof.
  intros H. destruct (Req_dec x 0) as [->|N]; [rewrite rnd32_0, Rminus_0_r, Rabs_R0; apply bpow_ge_0|].
  eapply Rle_trans; [apply error_le_half_ulp; typeclasses eauto|]. rewrite ulp_neq_0 by auto. unfold cexp.
  assert (M : (mag radix2 x <= 1)%Z) by (apply mag_le_bpow; auto; change 2^1 with 2; lra).
  assert (X : 2^(fexp32 (mag radix2 x)) <= 2^(-23)) by (apply bpow_le; unfold FLT_exp; lia).
  replace 2^(-23) with (2 * 2^(-24)) in X by (change 2 with 2^1; rewrite <- bpow_plus; reflexivity). lra.
Qed.
Lemma mixR_parts a b t : 0 <= a <= 1 -> 0 <= b <= 1 -> 0 <= t <= 1 ->
  let d := rnd64 (1 - t) in let p := rnd64 (a * d) in let r := rnd32 (b * t) in let s := rnd64 (p + r) in
  0 <= d <= 1 /\ 0 <= p <= 1 /\ 0 <= r <= 1 /\ 0 <= s <= 2 /\ 0 <= rnd32 s <= 2.
Proof.
  intros A B T d p r s.
  assert (N64 : forall x m, 0 <= x <= m -> F32 m -> 0 <= rnd64 x <= m).
  { intros x m X F. split; [rewrite <- rnd64_0; apply rnd64_le; lra|]. rewrite <- (rnd64_id m) by (apply wide; auto). apply rnd64_le. lra. }
  assert (N32 : forall x m, 0 <= x <= m -> F32 m -> 0 <= rnd32 x <= m).
  { intros x m X F. split; [rewrite <- rnd32_0; apply rnd32_le; lra|]. rewrite <- (rnd32_id m) by auto. apply rnd32_le. lra. }
  assert (F2 : F32 2) by (change 2 with 2^1; apply generic_format_bpow; unfold FLT_exp; lia).
  assert (D : 0 <= d <= 1) by (apply N64; [lra|apply F1]). assert (P : 0 <= p <= 1) by (apply N64; [nra|apply F1]). assert (R : 0 <= r <= 1) by (apply N32; [nra|apply F1]).
  assert (S : 0 <= s <= 2) by (apply N64; [lra|auto]). split; [exact D|]. split; [exact P|]. split; [exact R|]. split; [exact S|]. apply N32; auto.
Qed.
Lemma mixR_error a b t : 0 <= a <= 1 -> 0 <= b <= 1 -> 0 <= t <= 1 -> Rabs (mixR a b t - (a * (1 - t) + b * t)) <= 2^(-22).
Proof.
  intros A B T. destruct (mixR_parts a b t A B T) as (D & P & R & S & _). unfold mixR. set (d := rnd64 (1 - t)) in *. set (p := rnd64 (a * d)) in *. set (r := rnd32 (b * t)) in *. set (s := rnd64 (p + r)) in *.
  assert (E1 : Rabs (d - (1 - t)) <= 2^(-52)) by (apply err64; rewrite Rabs_pos_eq; lra).
  assert (E2 : Rabs (p - a * d) <= 2^(-52)) by (apply err64; rewrite Rabs_pos_eq; nra).
  assert (E3 : Rabs (r - b * t) <= 2^(-24)) by (apply err32_1; rewrite Rabs_pos_eq; nra).
  assert (E4 : Rabs (s - (p + r)) <= 2^(-52)) by (apply err64; rewrite Rabs_pos_eq; lra).
  assert (E5 : Rabs (rnd32 s - s) <= 2^(-23)) by (apply err32; rewrite Rabs_pos_eq; lra).
  assert (E6 : Rabs (a * d - a * (1 - t)) <= 2^(-52)).
  { rewrite <- Rmult_minus_distr_l, Rabs_mult, (Rabs_pos_eq a) by lra. rewrite <- (Rmult_1_l 2^(-52)). apply Rmult_le_compat; try lra. apply Rabs_pos. }
  assert (2^(-22) = 2 * 2^(-23)) by (change 2 with 2^1; rewrite <- bpow_plus; reflexivity). assert (2^(-23) = 2 * 2^(-24)) by (change 2 with 2^1; rewrite <- bpow_plus; reflexivity).
  assert (8 * 2^(-52) <= 2^(-24)) by (change 8 with 2^3; rewrite <- bpow_plus; apply bpow_le; lia). assert (G := bpow_gt_0 radix2 (-52)).
  apply Rabs_le. apply Rabs_le_inv in E1, E2, E3, E4, E5, E6. lra.
Qed.
