(** C175: dict_round on dicts of int and float. *)
From Verif Require Import Base VoxelFloat ChunkFloat VecFloatProps AvgFloatProps PyBase PyRoundModel.
From Flocq Require Import IEEE754.Bits IEEE754.Binary Core Relative Calc.Div Calc.Bracket.
From Coq Require Import Reals Lra Psatz.
Open Scope R_scope.
Local Instance P53p : Prec_gt_0 53 := eq_refl.
Local Instance VEp : Valid_exp (SpecFloat.fexp 53 1024) := BinarySingleNaN.fexp_correct 53 1024 eq_refl.

(** The unit of the last of p places, 10^-p. *)
Definition unit_of (p : Z) : R := powerRZ 10 (- p).
(** k units are as near to v as whole units can be; k is even if as many others are. *)
Definition nearest_units (v : R) (p k : Z) : Prop :=
  Rabs (v - IZR k * unit_of p) <= unit_of p / 2 /\ (Rabs (v - IZR k * unit_of p) = unit_of p / 2 -> Z.Even k).

Lemma unit_pos p : 0 < unit_of p. Proof. apply powerRZ_lt. lra. Qed.

Lemma half_even_spec n d : (0 < d)%Z -> (Z.abs (2 * n - 2 * half_even n d * d) <= d)%Z /\ ((Z.abs (2 * n - 2 * half_even n d * d) = d)%Z -> Z.Even (half_even n d)).
Proof.
  intros D. pose proof (Z.div_mod n d ltac:(lia)) as E. pose proof (Z.mod_pos_bound n d D) as M. unfold half_even.
  remember (n / d)%Z as q. remember (n mod d)%Z as r. clear Heqq Heqr.
  destruct (Z.compare_spec (2 * r) d) as [C|C|C].
  - destruct (Z.even q) eqn:Q.
    + split; [nia|]. intros _. apply Z.even_spec, Q.
    + split; [nia|]. intros _. apply Z.even_spec. rewrite Z.even_add, Q. reflexivity.
  - split; [nia|]. intros X. exfalso. nia.
  - split; [nia|]. intros X. exfalso. nia.
Qed.

Lemma half_even_units n d v p : (0 < d)%Z -> v = IZR n / IZR d * unit_of p -> nearest_units v p (half_even n d).
Proof.
  intros D ->. destruct (half_even_spec n d D) as [A E]. set (k := half_even n d) in *. pose proof (unit_pos p) as U.
  assert (DR : 0 < IZR d) by (apply IZR_lt; exact D).
  assert (V : Rabs (IZR n / IZR d * unit_of p - IZR k * unit_of p) = IZR (Z.abs (2 * n - 2 * k * d)) / IZR d * (unit_of p / 2)).
  { replace (IZR n / IZR d * unit_of p - IZR k * unit_of p) with (IZR (2 * n - 2 * k * d) / IZR d * (unit_of p / 2)).
    - rewrite abs_IZR, !Rabs_mult, (Rabs_pos_eq (unit_of p / 2)) by lra. unfold Rdiv. rewrite Rabs_mult, (Rabs_pos_eq (/ IZR d)); [reflexivity|]. left. apply Rinv_0_lt_compat, DR.
    - rewrite minus_IZR, !mult_IZR. field. lra. }
  split; rewrite V.
  - apply Rle_trans with (1 * (unit_of p / 2)); [|lra]. apply Rmult_le_compat_r; [lra|]. apply Rmult_le_reg_r with (IZR d); [exact DR|].
    unfold Rdiv. rewrite Rmult_assoc, Rinv_l by lra. rewrite Rmult_1_r, Rmult_1_l. apply IZR_le, A.
  - intros Q. apply E. apply eq_IZR. apply Rmult_eq_reg_r with (/ IZR d * (unit_of p / 2)).
    + transitivity (unit_of p / 2); [|field; lra]. transitivity (IZR (Z.abs (2 * n - 2 * k * d)) / IZR d * (unit_of p / 2)); [field; lra|exact Q].
    + apply Rgt_not_eq. apply Rmult_lt_0_compat; [apply Rinv_0_lt_compat, DR|lra].
Qed.

Lemma units_opp v p k : nearest_units v p k -> nearest_units (- v) p (- k).
Proof.
  unfold nearest_units. rewrite opp_IZR. replace (- v - - IZR k * unit_of p) with (- (v - IZR k * unit_of p)) by ring. rewrite Rabs_Ropp.
  intros [A E]. split; [exact A|]. intros Q. destruct (E Q) as [j ->]. exists (- j)%Z. lia.
Qed.
Lemma units_mono v w p k j : v <= w -> nearest_units v p k -> nearest_units w p j -> (k <= j)%Z.
Proof.
  intros L [A E] [A' E']. destruct (Z.le_gt_cases k j) as [|G]; [assumption|exfalso].
  pose proof (unit_pos p) as U. assert (GR : IZR j + 1 <= IZR k) by (rewrite <- plus_IZR; apply IZR_le; lia).
  apply Rabs_le_inv in A. apply Rabs_le_inv in A'.
  assert (M : (IZR j + 1) * unit_of p <= IZR k * unit_of p) by (apply Rmult_le_compat_r; lra).
  assert (X : v - IZR k * unit_of p = - (unit_of p / 2)) by lra.
  assert (Y : w - IZR j * unit_of p = unit_of p / 2) by lra.
  assert (Z1 : Z.Even k) by (apply E; rewrite X, Rabs_Ropp, Rabs_pos_eq; lra).
  assert (Z2 : Z.Even j) by (apply E'; rewrite Y, Rabs_pos_eq; lra).
  assert (IZR k <= IZR j + 1). { apply Rmult_le_reg_r with (unit_of p); [exact U|]. lra. }
  assert (k = j + 1)%Z. { apply eq_IZR. rewrite plus_IZR. lra. }
  destruct Z1, Z2. lia.
Qed.
Lemma units_unique v p k j : nearest_units v p k -> nearest_units v p j -> k = j.
Proof. intros A A'. apply Z.le_antisymm; eapply units_mono; eauto; lra. Qed.

Definition signed (s : bool) (x : R) : R := if s then - x else x.
Lemma signed_lt s x : 0 < x -> Rlt_bool (signed s x) 0 = s.
Proof. intros H. destruct s; cbn; [apply Rlt_bool_true|apply Rlt_bool_false]; lra. Qed.
Lemma signed_abs s x : 0 < x -> Rabs (signed s x) = x.
Proof. intros H. destruct s; cbn; [rewrite Rabs_Ropp|]; apply Rabs_pos_eq; lra. Qed.

Lemma read_back_ok s a c : (0 < a)%Z -> (0 < c)%Z -> nearest (read_back s a c) (signed s (IZR a / IZR c)) /\ Bsign 53 1024 (read_back s a c) = s.
Proof.
  intros A C. unfold read_back. set (x := IZR a / IZR c).
  assert (FA : F2R (Defs.Float radix2 a 0) = IZR a) by (unfold F2R; cbn; ring).
  assert (FC : F2R (Defs.Float radix2 c 0) = IZR c) by (unfold F2R; cbn; ring).
  assert (AR : 0 < IZR a) by (apply IZR_lt, A). assert (CR : 0 < IZR c) by (apply IZR_lt, C).
  assert (XP : 0 < x) by (apply Rdiv_lt_0_compat; assumption).
  pose proof (Fdiv_correct (SpecFloat.fexp 53 1024) (Defs.Float radix2 a 0) (Defs.Float radix2 c 0)) as H.
  rewrite FA, FC in H. specialize (H AR CR). fold x in H.
  destruct (Fdiv _ _ _) as [[m e] l]. destruct H as [E I].
  pose proof (binary_round_aux_correct' 53 1024 eq_refl eq_refl NE (signed s x) m e l) as R.
  rewrite (signed_abs s x XP), (signed_lt s x XP) in R.
  assert (NZ : signed s x <> 0) by (destruct s; cbn; lra).
  assert (EX : (e <= cexp radix2 (SpecFloat.fexp 53 1024) (signed s x))%Z) by (destruct s; cbn [signed]; [rewrite cexp_opp|]; exact E).
  specialize (R NZ I EX). cbv zeta in R. destruct R as [V R].
  destruct (Bool.bool_dec _ true) as [W|W]; [|contradiction].
  unfold nearest. cbv zeta. change (FLT_exp (-1074) 53) with (SpecFloat.fexp 53 1024). rewrite (signed_lt s x XP).
  change (BinarySingleNaN.round_mode NE) with ZnearestE in R.
  destruct (Rlt_bool _ _).
  - destruct R as (R1 & R2 & R3). rewrite B2R_FF2B, is_finite_FF2B, Bsign_FF2B. auto.
  - assert (Q : FF2B 53 1024 _ W = B754_infinity 53 1024 s) by (apply over_inf; rewrite B2FF_FF2B; exact R).
    rewrite Q. auto.
Qed.

Lemma IZR_pow c n : (0 < c)%Z -> (0 <= n)%Z -> IZR (c ^ n) = powerRZ (IZR c) n.
Proof. intros C N. rewrite <- (Z2Nat.id n N) at 1. rewrite <- pow_IZR, pow_powerRZ, Z2Nat.id by exact N. reflexivity. Qed.
Lemma ten_ratio p : IZR (10 ^ Z.max p 0) * unit_of p = IZR (10 ^ Z.max (- p) 0).
Proof.
  unfold unit_of. rewrite !IZR_pow by lia. rewrite <- powerRZ_add by lra. f_equal. lia.
Qed.
Lemma two_ratio e : IZR (2 ^ Z.max e 0) = IZR (2 ^ Z.max (- e) 0) * bpow radix2 e.
Proof.
  change 2%Z with (radix_val radix2). rewrite !IZR_Zpower by lia. rewrite <- bpow_plus. f_equal. lia.
Qed.
Lemma p10_pos n : 0 < IZR (10 ^ Z.max n 0). Proof. apply IZR_lt. apply Z.pow_pos_nonneg; lia. Qed.
Lemma p2_pos n : 0 < IZR (2 ^ Z.max n 0). Proof. apply IZR_lt. apply Z.pow_pos_nonneg; lia. Qed.

Lemma value_ratio (m : positive) e p : IZR (Zpos m) * bpow radix2 e =
  IZR (Zpos m * 2 ^ Z.max e 0 * 10 ^ Z.max p 0) / IZR (2 ^ Z.max (- e) 0 * 10 ^ Z.max (- p) 0) * unit_of p.
Proof.
  rewrite !mult_IZR. rewrite (two_ratio e), <- (ten_ratio p).
  pose proof (p2_pos (- e)). pose proof (p10_pos p). pose proof (unit_pos p). field. repeat split; lra.
Qed.
Lemma half_even_nonneg n d : (0 <= n)%Z -> (0 < d)%Z -> (0 <= half_even n d)%Z.
Proof.
  intros N D. pose proof (Z.div_pos n d N D). unfold half_even. destruct (Z.compare _ _); [destruct (Z.even _)| |]; lia.
Qed.
Lemma zero_near s : nearest (B754_zero 53 1024 s) 0.
Proof.
  unfold nearest. cbv zeta. rewrite round_0 by apply valid_rnd_N. rewrite Rabs_R0, Rlt_bool_true by apply bpow_gt_0. split; reflexivity.
Qed.
Lemma closer x d : fmt64 x -> Rabs (rndN d - d) <= Rabs (x - d).
Proof.
  intros F. pose proof (round_N_pt radix2 (SpecFloat.fexp 53 1024) (fun x => negb (Z.even x)) d) as [_ H]. apply (H x F).
Qed.
Lemma grid x : fmt64 x -> exists j : Z, x = IZR j * bpow radix2 (-1074).
Proof.
  intros F. apply (generic_format_FIX_FLT radix2 (-1074) 53) in F. apply FIX_format_generic in F. destruct F as [[j e] E1 E2]. cbn in E2. subst e. exists j. exact E1.
Qed.
Lemma very_near x d : fmt64 x -> Rabs (d - x) < bpow radix2 (-1075) -> rndN d = x.
Proof.
  intros F N. pose proof (closer x d F) as C. rewrite (Rabs_minus_sym x d) in C.
  assert (FR : fmt64 (rndN d)) by (apply generic_format_round; [apply VEp|apply valid_rnd_N]).
  destruct (grid _ F) as [i E]. destruct (grid _ FR) as [j E'].
  assert (T : Rabs (rndN d - x) < bpow radix2 (-1074)).
  { replace (rndN d - x) with ((rndN d - d) + (d - x)) by ring. eapply Rle_lt_trans; [apply Rabs_triang|].
    replace (bpow radix2 (-1074)) with (bpow radix2 (-1075) + bpow radix2 (-1075)); [lra|].
    replace (-1074)%Z with (1 + -1075)%Z by reflexivity. rewrite bpow_plus. change (bpow radix2 1) with 2. ring. }
  rewrite E, E' in T. rewrite <- Rmult_minus_distr_r, <- minus_IZR, Rabs_mult, (Rabs_pos_eq (bpow radix2 (-1074))), <- abs_IZR in T by apply bpow_ge_0.
  pose proof (bpow_gt_0 radix2 (-1074)) as BP.
  assert (IZR (Z.abs (j - i)) < 1) by (apply Rmult_lt_reg_r with (bpow radix2 (-1074)); [exact BP|lra]).
  assert (Z.abs (j - i) < 1)%Z by (apply lt_IZR; assumption). replace j with i in E' by lia. rewrite E'. symmetry. exact E.
Qed.
Lemma near_very x d : fin x = true -> Rabs (d - B x) < bpow radix2 (-1075) -> nearest x d.
Proof.
  intros F N. unfold nearest. cbv zeta. change (FLT_exp (-1074) 53) with (SpecFloat.fexp 53 1024).
  rewrite (very_near (B x) d (fmt_B x) N). rewrite Rlt_bool_true by apply abs_B2R_lt_emax. split; [exact F|reflexivity].
Qed.
Lemma small_unit p : (323 < p)%Z -> unit_of p / 2 < bpow radix2 (-1075).
Proof.
  intros H. pose proof (ten_ratio p) as T. rewrite Z.max_l, Z.max_r in T by lia. change (IZR (10 ^ 0)) with 1 in T. pose proof (unit_pos p) as U.
  assert (G : IZR (2 ^ 1074) < IZR (10 ^ p)).
  { apply IZR_lt. apply Z.lt_le_trans with (10 ^ 324)%Z; [vm_compute; reflexivity|]. apply Z.pow_le_mono_r; lia. }
  change (2 ^ 1074)%Z with (Zpower radix2 1074) in G. rewrite IZR_Zpower in G by lia.
  pose proof (bpow_gt_0 radix2 (-1074)) as BP.
  assert (M : bpow radix2 1074 * bpow radix2 (-1074) = 1) by (rewrite <- bpow_plus; reflexivity).
  assert (unit_of p < bpow radix2 (-1074)).
  { apply Rmult_lt_reg_l with (bpow radix2 1074); [apply bpow_gt_0|]. rewrite M, <- T. apply Rmult_lt_compat_r; assumption. }
  replace (-1075)%Z with (-1 + -1074)%Z by reflexivity. rewrite bpow_plus. change (bpow radix2 (-1)) with (/ 2). lra.
Qed.
Lemma large_unit p : (p < -308)%Z -> bpow radix2 1024 < unit_of p / 2.
Proof.
  intros H. pose proof (ten_ratio p) as T. rewrite Z.max_r, Z.max_l in T by lia. change (IZR (10 ^ 0)) with 1 in T. rewrite Rmult_1_l in T. rewrite T.
  assert (G : IZR (2 ^ 1025) < IZR (10 ^ (- p))).
  { apply IZR_lt. apply Z.lt_le_trans with (10 ^ 309)%Z; [vm_compute; reflexivity|]. apply Z.pow_le_mono_r; lia. }
  change (2 ^ 1025)%Z with (Zpower radix2 (1 + 1024)) in G. rewrite IZR_Zpower, bpow_plus in G by lia. change (bpow radix2 1) with 2 in G. lra.
Qed.

Definition signedZ (s : bool) (k : Z) : Z := if s then (- k)%Z else k.
Lemma signed_IZR s k u : IZR (signedZ s k) * u = signed s (IZR k * u).
Proof. destruct s; cbn [signedZ signed]; [rewrite opp_IZR; ring|reflexivity]. Qed.
Lemma B_finite s m e H : B (B754_finite 53 1024 s m e H) = signed s (IZR (Zpos m) * bpow radix2 e).
Proof. cbn [B2R]. unfold F2R. cbn [Fnum Fexp]. destruct s; cbn [cond_Zopp signed]; [rewrite opp_IZR; ring|reflexivity]. Qed.

(** A float is rounded to the double nearest to the nearest decimal, both ties to even, with the sign of the float; OverflowError if there is none. *)
Theorem C175_float x p : fin x = true -> exists k f, nearest_units (B x) p k /\ nearest f (IZR k * unit_of p) /\ Bsign 53 1024 f = Bsign 53 1024 x /\
  round_float x p = if fin f then Ret f else Raise OverflowError.
Proof.
  intros F. destruct x as [s|s|s pl H|s m e H]; try discriminate F.
  - exists 0%Z, (B754_zero 53 1024 s). split; [|split; [rewrite Rmult_0_l; apply zero_near|split; reflexivity]].
    pose proof (unit_pos p). split; cbn [B2R]; rewrite Rmult_0_l, Rminus_0_r, Rabs_R0; [lra|intros; exfalso; lra].
  - set (x := B754_finite 53 1024 s m e H). set (v := IZR (Zpos m) * bpow radix2 e).
    assert (BX : B x = signed s v) by apply B_finite.
    set (num := (Zpos m * 2 ^ Z.max e 0 * 10 ^ Z.max p 0)%Z). set (den := (2 ^ Z.max (- e) 0 * 10 ^ Z.max (- p) 0)%Z).
    assert (DP : (0 < den)%Z) by (apply Z.mul_pos_pos; apply Z.pow_pos_nonneg; lia).
    assert (NP : (0 <= num)%Z) by (apply Z.mul_nonneg_nonneg; [apply Z.mul_nonneg_nonneg; [lia|apply Z.pow_nonneg; lia]|apply Z.pow_nonneg; lia]).
    pose proof (half_even_units num den v p DP (value_ratio m e p)) as K. pose proof (half_even_nonneg num den NP DP) as KP.
    set (k := half_even num den) in *.
    assert (KS : nearest_units (B x) p (signedZ s k)).
    { rewrite BX. destruct s; cbn [signed signedZ]; [apply units_opp|]; exact K. }
    exists (signedZ s k).
    unfold round_float, x. cbv zeta. fold num. fold den. fold k. fold x.
    destruct (Z.ltb_spec 323 p) as [HP|HP].
    { exists x. split; [exact KS|]. split; [|split; reflexivity]. apply near_very; [reflexivity|]. rewrite Rabs_minus_sym. eapply Rle_lt_trans; [apply KS|]. apply small_unit, HP. }
    destruct (Z.ltb_spec p (-308)) as [LP|LP].
    { exists (B754_zero 53 1024 s). split; [exact KS|].
      assert (ZK : nearest_units (B x) p 0).
      { pose proof (large_unit p LP) as L. pose proof (abs_B2R_lt_emax 53 1024 x) as E. split; rewrite Rmult_0_l, Rminus_0_r; [lra|intros; exfalso; lra]. }
      rewrite (units_unique _ _ _ _ KS ZK), Rmult_0_l. split; [apply zero_near|split; reflexivity]. }
    destruct (Z.eqb_spec k 0) as [K0|K0].
    { exists (B754_zero 53 1024 s). split; [exact KS|]. rewrite K0, signed_IZR, Rmult_0_l. split; [|split; reflexivity].
      replace (signed s 0) with 0 by (destruct s; cbn; ring). apply zero_near. }
    exists (read_back s (k * 10 ^ Z.max (- p) 0) (10 ^ Z.max p 0)).
    destruct (read_back_ok s (k * 10 ^ Z.max (- p) 0) (10 ^ Z.max p 0)) as [RN RS].
    { apply Z.mul_pos_pos; [lia|apply Z.pow_pos_nonneg; lia]. }
    { apply Z.pow_pos_nonneg; lia. }
    split; [exact KS|]. split; [|split; [rewrite RS; reflexivity|reflexivity]].
    rewrite signed_IZR. replace (IZR k * unit_of p) with (IZR (k * 10 ^ Z.max (- p) 0) / IZR (10 ^ Z.max p 0)); [exact RN|].
    rewrite mult_IZR, <- (ten_ratio p). pose proof (p10_pos p). field. lra.
Qed.
Print Assumptions C175_float.

(** Infinities and NaN stay as they are. *)
Theorem C175_special x p : fin x = false -> round_float x p = Ret x.
Proof. destruct x; intros F; try discriminate F; reflexivity. Qed.
Print Assumptions C175_special.

Lemma rounded x p r : fin x = true -> round_float x p = Ret r -> exists k, nearest_units (B x) p k /\ fin r = true /\ B r = rndN (IZR k * unit_of p) /\ Bsign 53 1024 r = Bsign 53 1024 x.
Proof.
  intros F E. destruct (C175_float x p F) as (k & f & K & N & S & Q). rewrite E in Q. destruct (fin f) eqn:FF; [|discriminate Q]. injection Q as ->.
  exists k. unfold nearest in N. cbv zeta in N. change (FLT_exp (-1074) 53) with (SpecFloat.fexp 53 1024) in N.
  destruct (Rlt_bool _ _); [|subst f; discriminate FF]. destruct N. auto.
Qed.
Lemma units_dist x p k : fmt64 x -> nearest_units x p k -> Rabs (rndN (IZR k * unit_of p) - IZR k * unit_of p) <= Rabs (x - IZR k * unit_of p) /\ Rabs (x - IZR k * unit_of p) <= unit_of p / 2.
Proof. intros F [A _]. split; [apply closer, F|exact A]. Qed.

(** What is returned is within one unit of the last place of the float. *)
Theorem C175_error x p r : fin x = true -> round_float x p = Ret r -> fin r = true /\ Rabs (B r - B x) <= unit_of p.
Proof.
  intros F E. destruct (rounded x p r F E) as (k & K & FR & V & _). split; [exact FR|]. destruct (units_dist _ _ _ (fmt_B x) K) as [D1 D2].
  rewrite V. replace (rndN (IZR k * unit_of p) - B x) with ((rndN (IZR k * unit_of p) - IZR k * unit_of p) - (B x - IZR k * unit_of p)) by ring.
  eapply Rle_trans; [apply Rabs_triang|]. rewrite Rabs_Ropp. lra.
Qed.
Print Assumptions C175_error.

(** With places of at least 0, rounding never raises. *)
Theorem C175_returns x p : (0 <= p)%Z -> exists r, round_float x p = Ret r.
Proof.
  intros P. destruct (fin x) eqn:F; [|exists x; apply C175_special, F].
  destruct (C175_float x p F) as (k & f & K & N & S & Q). exists f. rewrite Q. destruct (fin f) eqn:FF; [reflexivity|exfalso].
  unfold nearest in N. cbv zeta in N. change (FLT_exp (-1074) 53) with (SpecFloat.fexp 53 1024) in N.
  destruct (Rlt_bool_spec (Rabs (rndN (IZR k * unit_of p))) (bpow radix2 1024)) as [L|L]; [destruct N; congruence|].
  destruct (units_dist _ _ _ (fmt_B x) K) as [D1 D2].
  pose proof (abs_B2R_le_emax_minus_prec 53 1024 eq_refl x) as M.
  assert (U : unit_of p <= 1).
  { pose proof (ten_ratio p) as T. rewrite Z.max_l, Z.max_r in T by lia. change (IZR (10 ^ 0)) with 1 in T. pose proof (unit_pos p).
    assert (1 <= IZR (10 ^ p)) by (apply IZR_le; assert (0 < 10 ^ p)%Z by (apply Z.pow_pos_nonneg; lia); lia). nra. }
  assert (T : Rabs (rndN (IZR k * unit_of p)) <= Rabs (B x) + 1).
  { replace (rndN (IZR k * unit_of p)) with (B x + ((rndN (IZR k * unit_of p) - IZR k * unit_of p) - (B x - IZR k * unit_of p))) at 1 by ring.
    eapply Rle_trans; [apply Rabs_triang|]. apply Rplus_le_compat_l. eapply Rle_trans; [apply Rabs_triang|]. rewrite Rabs_Ropp. lra. }
  assert (1 < bpow radix2 (1024 - 53)) by (change 1 with (bpow radix2 0) at 1; apply bpow_lt; reflexivity). lra.
Qed.
Print Assumptions C175_returns.

(** Rounding again changes nothing. *)
Theorem C175_again x p r : round_float x p = Ret r -> round_float r p = Ret r.
Proof.
  intros E. destruct (fin x) eqn:F; [|rewrite (C175_special x p F) in E; injection E as <-; apply C175_special, F].
  destruct (rounded x p r F E) as (k & K & FR & V & _). destruct (units_dist _ _ _ (fmt_B x) K) as [D1 D2].
  assert (KR : nearest_units (B r) p k).
  { rewrite V. split; [lra|]. intros Q. apply K. lra. }
  destruct (C175_float r p FR) as (k' & f & K' & N & S & Q). rewrite (units_unique _ _ _ _ K' KR) in N.
  unfold nearest in N. cbv zeta in N. change (FLT_exp (-1074) 53) with (SpecFloat.fexp 53 1024) in N.
  rewrite <- V in N. rewrite Rlt_bool_true in N by apply abs_B2R_lt_emax. destruct N as [FF N].
  rewrite FF in Q. rewrite Q. f_equal. apply B2R_Bsign_inj; auto.
Qed.
Print Assumptions C175_again.

(** Rounding keeps the order. *)
Theorem C175_order x y p r s : fin x = true -> fin y = true -> B x <= B y -> round_float x p = Ret r -> round_float y p = Ret s -> B r <= B s.
Proof.
  intros F G L E E'. destruct (rounded x p r F E) as (k & K & _ & -> & _). destruct (rounded y p s G E') as (j & J & _ & -> & _).
  apply rnd_le. apply Rmult_le_compat_r; [left; apply unit_pos|]. apply IZR_le. eapply units_mono; eauto.
Qed.
Print Assumptions C175_order.

(** Integers stay unless places is negative; then the nearest multiple of 10^-places, the even multiple of two. *)
Theorem C175_int z p : ((0 <= p)%Z -> round_int z p = z) /\ ((p < 0)%Z -> exists k, nearest_units (IZR z) p k /\ IZR (round_int z p) = IZR k * unit_of p).
Proof.
  unfold round_int. destruct (Z.leb_spec 0 p) as [H|H]; (split; intros H'); try lia.
  assert (U : unit_of p = IZR (10 ^ (- p))) by (unfold unit_of; rewrite IZR_pow by lia; reflexivity).
  assert (D : (0 < 10 ^ (- p))%Z) by (apply Z.pow_pos_nonneg; lia). assert (0 < IZR (10 ^ (- p))) by (apply IZR_lt, D).
  exists (half_even z (10 ^ (- p))). split; [apply half_even_units; [exact D|]; rewrite U; field; lra|rewrite mult_IZR, U; reflexivity].
Qed.
Print Assumptions C175_int.

Lemma int_again z p : round_int (round_int z p) p = round_int z p.
Proof.
  unfold round_int. destruct (Z.leb_spec 0 p) as [H|H]; [reflexivity|]. assert (D : (0 < 10 ^ (- p))%Z) by (apply Z.pow_pos_nonneg; lia).
  set (t := (10 ^ (- p))%Z) in *. f_equal. unfold half_even at 1. rewrite Z.div_mul, Z.mod_mul by lia. destruct (Z.compare_spec (2 * 0) t); lia.
Qed.

(** w is what v becomes with p places: a float the rounded float, an int an int. *)
Definition becomes (p : Z) (v w : number) : Prop :=
  match v, w with
  | PFloat x, PFloat r => round_float x p = Ret r
  | PInt z, PInt z' => ((0 <= p)%Z -> z' = z) /\ ((p < 0)%Z -> exists k, nearest_units (IZR z) p k /\ IZR z' = IZR k * unit_of p)
  | _, _ => False
  end.
Lemma number_becomes v p w : round_number v p = Ret w -> becomes p v w.
Proof.
  destruct v as [z|x]; cbn [round_number]; intros E; [injection E as <-; apply C175_int|].
  destruct (round_float x p) as [r| |] eqn:Q; try discriminate E. cbn [pbind] in E. injection E as <-. exact Q.
Qed.
(** dict_round keeps the keys in their order and rounds each value; rounding the result again changes nothing. *)
Theorem C175_dict {K} (d r : list (K * number)) p : round_dict d p = Ret r ->
  Forall2 (fun kv kw => fst kw = fst kv /\ becomes p (snd kv) (snd kw)) d r /\ round_dict r p = Ret r.
Proof.
  revert r. induction d as [|[k v] d IH]; intros r E; cbn [round_dict] in E; [injection E as <-; split; [constructor|reflexivity]|].
  destruct (round_number v p) as [w| |] eqn:EV; try discriminate E. cbn [pbind] in E. destruct (round_dict d p) as [d'| |] eqn:ED; try discriminate E. cbn [pbind] in E. injection E as <-.
  destruct (IH d' eq_refl) as [A1 A2]. split; [constructor; [split; [reflexivity|apply number_becomes, EV]|exact A1]|].
  cbn [round_dict]. assert (W : round_number w p = Ret w).
  { destruct v as [z|x]; cbn [round_number] in EV.
    - injection EV as <-. cbn [round_number]. rewrite int_again. reflexivity.
    - destruct (round_float x p) as [y| |] eqn:EX; try discriminate EV. cbn [pbind] in EV. injection EV as <-. cbn [round_number]. rewrite (C175_again x p y EX). reflexivity. }
  rewrite W. cbn [pbind]. rewrite A2. reflexivity.
Qed.
Print Assumptions C175_dict.

Lemma round_outcome x p : (exists r, round_float x p = Ret r) \/ round_float x p = Raise OverflowError.
Proof.
  destruct (fin x) eqn:F; [|left; exists x; apply C175_special, F]. destruct (C175_float x p F) as (k & f & _ & _ & _ & ->). destruct (fin f); eauto.
Qed.
(** It raises exactly if some float cannot be rounded, and then OverflowError; never with places of at least 0. *)
Theorem C175_dict_raises {K} (d : list (K * number)) p :
  (forall e, round_dict d p = Raise e <-> e = OverflowError /\ exists k x, In (k, PFloat x) d /\ round_float x p = Raise OverflowError) /\
  ((forall k x, In (k, PFloat x) d -> exists r, round_float x p = Ret r) -> exists r, round_dict d p = Ret r) /\
  ((0 <= p)%Z -> exists r, round_dict d p = Ret r).
Proof.
  assert (A : (forall k x, In (k, PFloat x) d -> exists r, round_float x p = Ret r) -> exists r, round_dict d p = Ret r).
  { induction d as [|[k v] d IH]; intros H; cbn [round_dict]; [eauto|]. destruct IH as [r ->]; [intros k' x I; apply (H k' x); right; exact I|].
    destruct v as [z|x]; cbn [round_number pbind]; [eauto|]. destruct (H k x (or_introl eq_refl)) as [y ->]. cbn [pbind]. eauto. }
  split; [|split; [exact A|intros P; apply A; intros; apply C175_returns, P]].
  intros e. split.
  - intros E. clear A. induction d as [|[k v] d IH]; cbn [round_dict] in E; [discriminate E|].
    destruct v as [z|x]; cbn [round_number pbind] in E.
    + destruct (round_dict d p) as [r|e'|] eqn:ED; cbn [pbind] in E; try discriminate E. destruct (IH E) as [-> (k' & x & I & Q)]. split; [reflexivity|]. exists k', x. split; [right; exact I|exact Q].
    + destruct (round_outcome x p) as [[y EX]|EX]; rewrite EX in E; cbn [pbind] in E.
      * destruct (round_dict d p) as [r|e'|] eqn:ED; cbn [pbind] in E; try discriminate E. destruct (IH E) as [-> (k' & x' & I & Q)]. split; [reflexivity|]. exists k', x'. split; [right; exact I|exact Q].
      * injection E as <-. split; [reflexivity|]. exists k, x. split; [left; reflexivity|exact EX].
  - intros [-> (k & x & I & Q)]. clear A. induction d as [|[k' v] d IH]; [contradiction|]. cbn [round_dict]. destruct I as [I|I].
    + injection I as -> ->. cbn [round_number]. rewrite Q. reflexivity.
    + specialize (IH I). destruct v as [z|y]; cbn [round_number pbind]; [rewrite IH; reflexivity|].
      destruct (round_outcome y p) as [[w ->]| ->]; cbn [pbind]; [rewrite IH|]; reflexivity.
Qed.
Print Assumptions C175_dict_raises.

(** One expects 2.675 to become 2.68, the even one of the two decimals as near; the double that is written so becomes 2.67. *)
Definition dec (n d : Z) : fl := b64_div NE (f_of_Z n) (f_of_Z d).
Theorem C175_half_refuted : exists x : fl, nearest x (2675 / 1000) /\ round_float x 2 = Ret (dec 267 100) /\ bits_of_b64 (dec 267 100) <> bits_of_b64 (dec 268 100).
Proof.
  exists (dec 2675 1000). split; [|split; [|vm_compute; discriminate]].
  - assert (V1 : B (f_of_Z 2675) = 2675) by (vm_compute; lra). assert (V2 : B (f_of_Z 1000) = 1000) by (vm_compute; lra).
    pose proof (near_div (f_of_Z 2675) (f_of_Z 1000) eq_refl) as N. rewrite V1, V2 in N. apply N. lra.
  - assert (E : match round_float (dec 2675 1000) 2 with Ret r => bits_of_b64 r | _ => (-1)%Z end = bits_of_b64 (dec 267 100)) by (vm_compute; reflexivity).
    destruct (round_outcome (dec 2675 1000) 2) as [[r Q]|Q]; rewrite Q in *; [|exfalso; vm_compute in E; discriminate E].
    f_equal. apply (f_equal b64_of_bits) in E. unfold b64_of_bits, bits_of_b64 in E. rewrite !binary_float_of_bits_of_binary_float in E. exact E.
Qed.
Print Assumptions C175_half_refuted.

(** Hypotheses are met: a dict of an integer and of floats with 2 places and with -1; a float too large for -308 places. *)
Definition shown (r : py (list (nat * number))) : list (nat * Z) :=
  match r with Ret l => map (fun kv => (fst kv, match snd kv with PInt z => z | PFloat x => bits_of_b64 x end)) l | _ => [(0%nat, (-1)%Z)] end.
Example a_dict : let d := [(1%nat, PInt 17); (2%nat, PFloat (dec 12345 1000)); (3%nat, PFloat (dec (-1) 1000))] in
  shown (round_dict d 2) = [(1%nat, 17%Z); (2%nat, bits_of_b64 (dec 1235 100)); (3%nat, bits_of_b64 (B754_zero 53 1024 true))] /\
  shown (round_dict d (-1)) = [(1%nat, 20%Z); (2%nat, bits_of_b64 (dec 10 1)); (3%nat, bits_of_b64 (B754_zero 53 1024 true))] /\
  round_float (b64_of_bits 0x7FEFFFFFFFFFFFFF) (-308) = Raise OverflowError.
Proof. repeat split; vm_compute; reflexivity. Qed.
