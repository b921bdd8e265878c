(** C164: revolute angles with the rounding of doubles. *)
From Verif Require Import Base VoxelFloat DynGridFloat ChunkFloat InterpFloatModel InterpFloatProps RevoluteFloatModel PiBounds.
From Verif Require MathModel MathProps.
From Flocq Require Import IEEE754.Bits IEEE754.Binary Core Sterbenz Plus_error Relative.
From Coq Require Import Reals Lra Psatz.
Local Instance P53 : Prec_gt_0 53 := eq_refl.
Local Instance VE : Valid_exp (SpecFloat.fexp 53 1024) := BinarySingleNaN.fexp_correct 53 1024 eq_refl.
Open Scope R_scope.

(** ** Specification *)
(** The number that M_PI is. *)
Notation half_turn := (B f_pi).
(** The same angle: a whole number of turns of 2.0 * M_PI apart. *)
Definition turns (a b : R) : Prop := exists k : Z, b = a + 2 * half_turn * IZR k.
(** [d] is the length of the shortest way, in either direction, from [a] to [b]. *)
Definition shortest_way (a b d : R) : Prop := (exists e, turns (a + e) b /\ Rabs e = d) /\ forall e, turns (a + e) b -> d <= Rabs e.

(** ** The constants *)
Notation fmtd := (generic_format radix2 (SpecFloat.fexp 53 1024)).
Lemma B_FF (x : fl) s m e : B2FF 53 1024 x = F754_finite s m e -> fin x = true /\ B x = F2R (Float radix2 (cond_Zopp s (Zpos m)) e).
Proof. intros H. destruct x; cbn [B2FF] in H; try discriminate. injection H as -> -> ->. split; reflexivity. Qed.
Lemma pi_val : fin f_pi = true /\ half_turn = 7074237752028440 / 2251799813685248.
Proof. destruct (B_FF f_pi false 7074237752028440 (-51)) as [F V]; [vm_compute; reflexivity|]. split; [exact F|]. rewrite V. unfold F2R. cbn. field. Qed.
Lemma twopi_val : fin f_2pi = true /\ B f_2pi = 2 * half_turn.
Proof. destruct (B_FF f_2pi false 7074237752028440 (-50)) as [F V]; [vm_compute; reflexivity|]. split; [exact F|]. rewrite V, (proj2 pi_val). unfold F2R. cbn. field. Qed.
Lemma opp_val x : fin (b64_opp x) = fin x /\ B (b64_opp x) = - B x.
Proof. split; [unfold b64_opp; apply is_finite_Bopp|apply B2R_Bopp]. Qed.
Lemma pi_range : 3 < half_turn < 4. Proof. rewrite (proj2 pi_val). lra. Qed.
Lemma fmtB (x : fl) : fmtd (B x). Proof. apply generic_format_B2R. Qed.
Lemma fmt_opp x : fmtd x -> fmtd (- x). Proof. apply generic_format_opp. Qed.
Lemma fmt_2pi : fmtd (2 * half_turn). Proof. rewrite <- (proj2 twopi_val). apply fmtB. Qed.
Lemma fmt_2pi' : fmtd (- (2 * half_turn)). Proof. apply fmt_opp, fmt_2pi. Qed.
Lemma minus_pi_val : fin f_minus_pi = true /\ B f_minus_pi = - half_turn.
Proof. unfold f_minus_pi. destruct (opp_val f_pi) as [F V]. rewrite F, V. split; [apply pi_val|reflexivity]. Qed.
Lemma twopi'_val : fin (b64_opp f_2pi) = true /\ B (b64_opp f_2pi) = - (2 * half_turn).
Proof. destruct (opp_val f_2pi) as [F V]. rewrite F, V, (proj2 twopi_val). split; [apply twopi_val|reflexivity]. Qed.
Lemma b_3 : b 3 = 8. Proof. rewrite b_opaque. cbn. lra. Qed.

(** ** fmod is exact *)
Lemma modulo_trunc (X Y : Z) : (0 <= X)%Z -> (0 < Y)%Z -> IZR (X mod Y) = IZR X - IZR Y * IZR (Ztrunc (IZR X / IZR Y)).
Proof.
  intros HX HY. assert (Y0 : 0 < IZR Y) by (apply IZR_lt; auto). assert (X0 : 0 <= IZR X) by (apply IZR_le; auto).
  rewrite Ztrunc_floor by (apply Rmult_le_pos; [exact X0|left; apply Rinv_0_lt_compat; exact Y0]). rewrite Zfloor_div by lia.
  rewrite <- mult_IZR, <- minus_IZR. f_equal. pose proof (Z.div_mod X Y ltac:(lia)). lia.
Qed.
Lemma mod_val x y : fin x = true -> fin y = true -> 0 < B y -> fin (f_mod x y) = true /\ B (f_mod x y) = B x - B y * IZR (Ztrunc (B x / B y)).
Proof.
  intros FX FY PY. destruct x as [sx|sx|sx pl pe|sx mx ex bx]; try discriminate; destruct y as [sy|sy|sy pl' pe'|sy my ey bY]; try discriminate; cbn [B2R] in PY; try lra.
  - cbn [f_mod]. split; [reflexivity|]. cbn [B2R]. unfold Rdiv. rewrite Rmult_0_l. replace (Ztrunc 0) with 0%Z by (symmetry; apply (Ztrunc_IZR 0)). lra.
  - destruct sy; [exfalso; revert PY; apply Rle_not_lt; apply F2R_le_0; cbn; lia|]. cbn [f_mod]. set (e := Z.min ex ey). set (X := (Zpos mx * 2 ^ (ex - e))%Z). set (Y := (Zpos my * 2 ^ (ey - e))%Z).
    assert (E1 : (e <= ex)%Z) by apply Z.le_min_l. assert (E2 : (e <= ey)%Z) by apply Z.le_min_r.
    assert (X0 : (0 < X)%Z) by (apply Z.mul_pos_pos; [lia|apply Z.pow_pos_nonneg; lia]). assert (Y0 : (0 < Y)%Z) by (apply Z.mul_pos_pos; [lia|apply Z.pow_pos_nonneg; lia]).
    assert (VX : F2R (Float radix2 (Zpos mx) ex) = IZR X * bpow radix2 e). { rewrite (F2R_change_exp radix2 e _ ex E1). reflexivity. }
    assert (VY : F2R (Float radix2 (Zpos my) ey) = IZR Y * bpow radix2 e). { rewrite (F2R_change_exp radix2 e _ ey E2). reflexivity. }
    assert (R1 : (0 <= X mod Y < Y)%Z) by (apply Z.mod_pos_bound; auto). assert (R2 : (X mod Y <= X)%Z) by (apply Z.mod_le; lia).
    assert (BX : (Zpos mx < 2 ^ 53)%Z /\ (-1074 <= ex)%Z /\ F2R (Float radix2 (Zpos mx) ex) < bpow radix2 1024).
    { pose proof (abs_B2R_lt_emax 53 1024 (B754_finite 53 1024 false mx ex bx)) as M. cbn [B2R] in M. rewrite Rabs_pos_eq in M by (apply F2R_ge_0; cbn; lia).
      destruct (andb_prop _ _ bx) as [C D]. apply Zeq_bool_eq in C. unfold SpecFloat.fexp, SpecFloat.emin in C. rewrite Digits.Zpos_digits2_pos in C.
      split; [|split; [lia|exact M]]. change 2%Z with (radix_val radix2). apply Zpower_gt_Zdigits with (beta := radix2) (e := 53%Z) (x := Zpos mx). lia. }
    assert (BY : (Zpos my < 2 ^ 53)%Z /\ (-1074 <= ey)%Z).
    { destruct (andb_prop _ _ bY) as [C D]. apply Zeq_bool_eq in C. unfold SpecFloat.fexp, SpecFloat.emin in C. rewrite Digits.Zpos_digits2_pos in C.
      split; [|lia]. change 2%Z with (radix_val radix2). apply Zpower_gt_Zdigits with (beta := radix2) (e := 53%Z) (x := Zpos my). lia. }
    assert (SM : (X mod Y < 2 ^ 53)%Z).
    { destruct (Z.min_spec ex ey) as [[_ M]|[_ M]]; fold e in M; [assert (X = Zpos mx) by (unfold X; rewrite M, Z.sub_diag; lia)|assert (Y = Zpos my) by (unfold Y; rewrite M, Z.sub_diag; lia)]; lia. }
    set (r := (if sx then - (X mod Y) else X mod Y)%Z). assert (AR : (Z.abs r = X mod Y)%Z) by (unfold r; destruct sx; lia).
    pose proof (binary_normalize_correct 53 1024 eq_refl eq_refl NE r e sx) as N. change (BinarySingleNaN.round_mode NE) with ZnearestE in N.
    assert (G : fmtd (F2R (Float radix2 r e))) by (apply fmt; [rewrite AR; exact SM|lia]). rewrite (rnd_same _ G) in N. rewrite Rlt_bool_true in N.
    + destruct N as (N1 & N2 & _). split; [exact N2|]. rewrite N1. change (B (B754_finite 53 1024 false my ey bY)) with (F2R (Float radix2 (Zpos my) ey)). rewrite VY.
      assert (E0 := bpow_gt_0 radix2 e). assert (YR : 0 < IZR Y) by (apply IZR_lt; auto). pose proof (modulo_trunc X Y ltac:(lia) Y0) as MT.
      assert (Q : IZR X * bpow radix2 e / (IZR Y * bpow radix2 e) = IZR X / IZR Y) by (field; lra).
      destruct sx.
      * change (B (B754_finite 53 1024 true mx ex bx)) with (F2R (Float radix2 (- Zpos mx) ex)). rewrite F2R_Zopp, VX. replace (- (IZR X * bpow radix2 e) / (IZR Y * bpow radix2 e)) with (- (IZR X / IZR Y)) by (field; lra).
        rewrite Ztrunc_opp, opp_IZR. unfold F2R, r. cbn [Fnum Fexp]. rewrite opp_IZR, MT. ring.
      * change (B (B754_finite 53 1024 false mx ex bx)) with (F2R (Float radix2 (Zpos mx) ex)). rewrite VX, Q. unfold F2R, r. cbn [Fnum Fexp]. rewrite MT. ring.
    + rewrite <- F2R_Zabs, AR. eapply Rle_lt_trans; [|apply BX]. rewrite VX. unfold F2R. cbn [Fnum Fexp]. apply Rmult_le_compat_r; [apply bpow_ge_0|apply IZR_le; auto].
Qed.

(** ** Comparisons and exact operations *)
Lemma le_R x y : fin x = true -> fin y = true -> f_le x y = MathModel.Rleb (B x) (B y).
Proof.
  intros FX FY. destruct (MathModel.Rleb (B x) (B y)) eqn:E.
  - apply MathProps.Rleb_spec in E. apply le_spec; auto.
  - apply MathProps.Rleb_false in E. destruct (f_le x y) eqn:F; auto. apply le_spec in F; auto. lra.
Qed.
Lemma lt_R x y : fin x = true -> fin y = true -> f_lt x y = MathModel.Rltb (B x) (B y).
Proof.
  intros FX FY. destruct (MathModel.Rltb (B x) (B y)) eqn:E.
  - apply MathProps.Rltb_spec in E. apply lt_spec; auto.
  - apply MathProps.Rltb_false in E. destruct (f_lt x y) eqn:F; auto. apply lt_spec in F; auto. lra.
Qed.
Lemma exact_minus x y : fmtd x -> fmtd y -> y / 2 <= x <= 2 * y -> rndN (x - y) = x - y.
Proof. intros FX FY H. apply rnd_same. change (SpecFloat.fexp 53 1024) with (FLT_exp (-1074) 53) in *. apply sterbenz; auto; typeclasses eauto. Qed.
Lemma rnd_opp x : rndN (- x) = - rndN x. Proof. apply round_NE_opp. Qed.
Lemma rnd_half x k : (-1000 <= k)%Z -> Rabs x < b k -> Rabs (rndN x - x) <= b (k - 54).
Proof.
  intros K X. destruct (Req_dec x 0) as [->|N]; [rewrite round_0, Rminus_0_r, Rabs_R0 by typeclasses eauto; left; apply b_pos|].
  eapply Rle_trans; [apply error_le_half_ulp; typeclasses eauto|]. rewrite ulp_neq_0 by auto. unfold cexp.
  replace (k - 54)%Z with (-1 + (k - 53))%Z by lia. rewrite b_add. apply Rmult_le_compat; [lra|apply bpow_ge_0|right; reflexivity|].
  rewrite (b_opaque (k - 53)). apply bpow_le. assert (M : (mag radix2 x <= k)%Z) by (apply mag_le_bpow; auto). unfold SpecFloat.fexp, SpecFloat.emin. lia.
Qed.
Lemma b_2 : b 2 = 4. Proof. rewrite b_opaque. cbn. lra. Qed.
Lemma b_52 : b (2 - 54) = / 4503599627370496. Proof. rewrite b_opaque. cbn. reflexivity. Qed.
Lemma b_51 : b (3 - 54) = / 2251799813685248. Proof. rewrite b_opaque. cbn. reflexivity. Qed.

(** ** EnforceContinuousRevoluteBounds is exact *)
Lemma enforce_val v : fin v = true -> fin (f_enforce v) = true /\ B (f_enforce v) = MathModel.enforce half_turn (B v).
Proof.
  intros F. destruct pi_val as [F1 _]. destruct minus_pi_val as [F2 V2]. destruct twopi_val as [F3 V3]. pose proof pi_range as PR.
  destruct (mod_val v f_2pi F F3) as [FM VM]; [rewrite V3; lra|]. rewrite V3 in VM.
  destruct (MathProps.fmod_spec half_turn ltac:(lra) (B v)) as [_ MB]. unfold MathModel.fmod in MB. rewrite <- VM in MB. apply Rabs_def2 in MB.
  unfold f_enforce, MathModel.enforce. cbn zeta. unfold MathModel.fmod. rewrite <- VM. rewrite (le_R v), (lt_R f_pi v), (le_R (f_mod _ _)), (lt_R f_pi (f_mod _ _)), V2 by auto.
  destruct (MathModel.Rleb (B v) (- half_turn) || MathModel.Rltb half_turn (B v)); [|auto].
  destruct (MathModel.Rleb (B (f_mod v f_2pi)) (- half_turn)) eqn:E1; [apply MathProps.Rleb_spec in E1|apply MathProps.Rleb_false in E1; destruct (MathModel.Rltb half_turn (B (f_mod v f_2pi))) eqn:E2; [apply MathProps.Rltb_spec in E2|auto]].
  - destruct (plus_val (f_mod v f_2pi) f_2pi 3 FM F3) as [A C]; [lia|rewrite V3, b_3; apply Rabs_le; lra|]. split; [exact A|]. rewrite C, V3.
    replace (B (f_mod v f_2pi) + 2 * half_turn) with (2 * half_turn - (- B (f_mod v f_2pi))) by ring. apply exact_minus; [apply fmt_2pi|apply fmt_opp, fmtB|lra].
  - destruct (minus_val (f_mod v f_2pi) f_2pi 3 FM F3) as [A C]; [lia|rewrite V3, b_3; apply Rabs_le; lra|]. split; [exact A|]. rewrite C, V3.
    apply exact_minus; [apply fmtB|apply fmt_2pi|lra].
Qed.
Lemma enforce_keeps v : fin v = true -> - half_turn < B v <= half_turn -> f_enforce v = v.
Proof.
  intros F R. destruct pi_val as [F1 _]. destruct minus_pi_val as [F2 V2]. unfold f_enforce. rewrite le_R, lt_R, V2 by auto.
  rewrite (proj2 (MathProps.Rleb_false _ _)), (proj2 (MathProps.Rltb_false _ _)) by lra. reflexivity.
Qed.
Lemma enforce_range v : fin v = true -> fin (f_enforce v) = true /\ turns (B v) (B (f_enforce v)) /\ - half_turn < B (f_enforce v) <= half_turn.
Proof.
  intros F. destruct (enforce_val v F) as [A C]. rewrite C. pose proof pi_range. destruct (MathProps.enforce_spec half_turn ltac:(lra) (B v)) as [S R]. split; [exact A|]. split; [exact S|exact R].
Qed.
Lemma enforce_twice v : fin v = true -> f_enforce (f_enforce v) = f_enforce v.
Proof. intros F. destruct (enforce_range v F) as (A & _ & R). apply enforce_keeps; auto. Qed.

(** EnforceContinuousRevoluteBounds of every finite double is a finite double in (-M_PI, M_PI], a whole number of turns of
    2.0 * M_PI away without any rounding, the same double if it was there already; from the angle it is meant to be, that is
    counting turns of 2 pi, it is no further than the rounding of the argument itself. *)
Theorem C164_enforce v : fin v = true -> let r := f_enforce v in
  fin r = true /\ turns (B v) (B r) /\ - half_turn < B r <= half_turn /\ (- half_turn < B v <= half_turn -> r = v) /\
  exists k : Z, Rabs (B v + 2 * PI * IZR k - B r) <= Rabs (B v) * two_to (-53).
Proof.
  intros F r. destruct (enforce_range v F) as (A & T & R). fold r in A, T, R. split; [exact A|]. split; [exact T|]. split; [exact R|].
  split; [intros I; apply enforce_keeps; auto|].
  assert (D : (- half_turn < B v <= half_turn) \/ half_turn <= Rabs (B v)). { unfold Rabs. destruct (Rcase_abs (B v)); lra. }
  assert (E53 : bpow radix2 (-53) = / 9007199254740992) by reflexivity.
  destruct D as [D|D].
  - exists 0%Z. replace r with v by (symmetry; apply enforce_keeps; auto). replace (B v + 2 * PI * 0 - B v) with 0 by ring. rewrite Rabs_R0. apply Rmult_le_pos; [apply Rabs_pos|apply bpow_ge_0].
  - destruct T as [k E]. exists k. rewrite E. replace (B v + 2 * PI * IZR k - (B v + 2 * half_turn * IZR k)) with (2 * (PI - half_turn) * IZR k) by ring.
    destruct pi_val as [_ PV]. pose proof pi_bounds as PB. rewrite <- PV in PB. rewrite Rabs_mult, (Rabs_pos_eq (2 * (PI - half_turn))) by lra.
    assert (K : 2 * half_turn * Rabs (IZR k) <= 2 * Rabs (B v)).
    { replace (2 * half_turn * Rabs (IZR k)) with (Rabs (B r - B v)); [apply Rle_trans with (Rabs (B r) + Rabs (B v)); [|assert (Rabs (B r) <= half_turn) by (apply Rabs_le; lra); lra]|].
      - unfold Rminus. eapply Rle_trans; [apply Rabs_triang|]. rewrite Rabs_Ropp. lra.
      - rewrite E. replace (B v + 2 * half_turn * IZR k - B v) with (2 * half_turn * IZR k) by ring. rewrite Rabs_mult, (Rabs_pos_eq (2 * half_turn)); [reflexivity|lra]. }
    rewrite E53. pose proof (Rabs_pos (IZR k)) as K0. set (kk := Rabs (IZR k)) in *. set (av := Rabs (B v)) in *.
    apply Rle_trans with (2 * (123 / 10 ^ 18) * kk); [apply Rmult_le_compat_r; lra|].
    apply Rle_trans with (2 * (123 / 10 ^ 18) * (av / half_turn)).
    + apply Rmult_le_compat_l; [lra|]. apply Rmult_le_reg_l with (2 * half_turn); [lra|]. replace (2 * half_turn * (av / half_turn)) with (2 * av) by (field; lra). exact K.
    + unfold Rdiv. rewrite (Rmult_comm av), <- Rmult_assoc, (Rmult_comm av (/ 9007199254740992)). apply Rmult_le_compat_r; [apply Rabs_pos|].
      apply Rmult_le_reg_r with half_turn; [lra|]. rewrite Rmult_assoc, Rinv_l by lra. lra.
Qed.
Print Assumptions C164_enforce.

(** ** Distances *)
Definition signed_of (raw : R) : R :=
  if MathModel.Rleb raw (- half_turn) then - (2 * half_turn) - raw else if MathModel.Rltb half_turn raw then 2 * half_turn - raw else raw.
Lemma raw_val a b : fin a = true -> fin b = true ->
  fin (b64_minus NE (f_enforce b) (f_enforce a)) = true /\ B (b64_minus NE (f_enforce b) (f_enforce a)) = rndN (B (f_enforce b) - B (f_enforce a)) /\
  Rabs (B (f_enforce b) - B (f_enforce a)) < 2 * half_turn /\ Rabs (rndN (B (f_enforce b) - B (f_enforce a))) <= 2 * half_turn.
Proof.
  intros FA FB. destruct (enforce_range a FA) as (A1 & _ & A3). destruct (enforce_range b FB) as (B1 & _ & B3). pose proof pi_range as PR.
  assert (D : Rabs (B (f_enforce b) - B (f_enforce a)) < 2 * half_turn) by (apply Rabs_def1; lra).
  destruct (minus_val (f_enforce b) (f_enforce a) 3 B1 A1) as [M1 M2]; [lia|rewrite b_3; lra|].
  repeat split; auto. apply Rabs_le. apply Rabs_def2 in D. split.
  - rewrite <- (rnd_same (- (2 * half_turn))) by (apply fmt_opp, fmt_2pi). apply rnd_mono. lra.
  - rewrite <- (rnd_same (2 * half_turn)) by apply fmt_2pi. apply rnd_mono. lra.
Qed.
Lemma signed_val a b : fin a = true -> fin b = true ->
  fin (f_signed_distance a b) = true /\ B (f_signed_distance a b) = signed_of (rndN (B (f_enforce b) - B (f_enforce a))).
Proof.
  intros FA FB. destruct (raw_val a b FA FB) as (F & V & _ & BD). destruct pi_val as [F1 _]. destruct minus_pi_val as [F2 V2]. destruct twopi_val as [F3 V3]. destruct twopi'_val as [F4 V4]. pose proof pi_range as PR.
  unfold f_signed_distance, signed_of. cbn zeta. rewrite le_R, lt_R, V2 by auto. set (raw := b64_minus NE (f_enforce b) (f_enforce a)) in *. rewrite <- V in *. assert (FM : fmtd (B raw)) by apply fmtB.
  assert (BD' : - (2 * half_turn) <= B raw <= 2 * half_turn) by (destruct (raw_val a b FA FB) as (_ & V' & _ & Q); fold raw in V'; rewrite <- V' in Q; revert Q; unfold Rabs; destruct (Rcase_abs _); lra).
  destruct (MathModel.Rleb (B raw) (- half_turn)) eqn:E1; [apply MathProps.Rleb_spec in E1|destruct (MathModel.Rltb half_turn (B raw)) eqn:E2; [apply MathProps.Rltb_spec in E2|auto]].
  - destruct (minus_val (b64_opp f_2pi) raw 3 F4 F) as [A C]; [lia|rewrite V4, b_3; apply Rabs_le; lra|]. split; [exact A|]. rewrite C, V4.
    replace (- (2 * half_turn) - B raw) with (- B raw - 2 * half_turn) by ring. apply exact_minus; [apply fmt_opp, FM|apply fmt_2pi|lra].
  - destruct (minus_val f_2pi raw 3 F3 F) as [A C]; [lia|rewrite V3, b_3; apply Rabs_le; lra|]. split; [exact A|]. rewrite C, V3.
    apply exact_minus; [apply fmt_2pi|exact FM|lra].
Qed.
Lemma signed_of_abs x : Rabs x <= 2 * half_turn -> Rabs (signed_of x) = half_turn - Rabs (Rabs x - half_turn).
Proof.
  intros H. pose proof pi_range. unfold signed_of.
  destruct (MathModel.Rleb x (- half_turn)) eqn:E1; [apply MathProps.Rleb_spec in E1|apply MathProps.Rleb_false in E1; destruct (MathModel.Rltb half_turn x) eqn:E2; [apply MathProps.Rltb_spec in E2|apply MathProps.Rltb_false in E2]];
  revert H; unfold Rabs; repeat (destruct (Rcase_abs _)); lra.
Qed.
Lemma exact_distance a b : fin a = true -> fin b = true -> shortest_way (B a) (B b) (Rabs (signed_of (B (f_enforce b) - B (f_enforce a)))).
Proof.
  intros FA FB. destruct (enforce_val a FA) as [_ A]. destruct (enforce_val b FB) as [_ C]. rewrite A, C. pose proof pi_range.
  exact (proj1 (MathProps.C49_distance half_turn (B a) (B b) ltac:(lra))).
Qed.
Lemma lip x y e : Rabs (x - y) <= e -> Rabs ((half_turn - Rabs (Rabs x - half_turn)) - (half_turn - Rabs (Rabs y - half_turn))) <= e.
Proof. unfold Rabs. repeat (destruct (Rcase_abs _)); lra. Qed.

(** ContinuousRevoluteDistance of finite doubles is finite, in [0, M_PI], the same both ways, 0 for the same angle, and no
    further than 2^-51 from the length of the shortest way; the signed distance is that or its opposite. *)
Theorem C164_distance a b : fin a = true -> fin b = true -> let d := f_revolute_distance a b in
  fin d = true /\ 0 <= B d <= half_turn /\ B (f_revolute_distance b a) = B d /\ (turns (B a) (B b) -> B d = 0) /\
  (exists s, shortest_way (B a) (B b) s /\ Rabs (B d - s) <= two_to (-51)) /\
  fin (f_signed_distance a b) = true /\ Rabs (B (f_signed_distance a b)) = B d.
Proof.
  intros FA FB d. destruct (signed_val a b FA FB) as [F V]. destruct (signed_val b a FB FA) as [F' V']. destruct (raw_val a b FA FB) as (_ & _ & RD & RR). pose proof pi_range as PR.
  assert (DV : forall x, B (f_abs x) = Rabs (B x)) by (intros x; apply abs_val).
  assert (FD : fin d = true) by (unfold d, f_revolute_distance; rewrite (proj1 (abs_val _)); exact F).
  assert (VD : B d = half_turn - Rabs (Rabs (rndN (B (f_enforce b) - B (f_enforce a))) - half_turn)) by (unfold d, f_revolute_distance; rewrite DV, V; apply signed_of_abs; exact RR).
  split; [exact FD|]. split; [rewrite VD; revert RR; unfold Rabs; repeat (destruct (Rcase_abs _)); lra|].
  split; [|split; [|split; [|split]]].
  - unfold f_revolute_distance. rewrite DV, V'. replace (B (f_enforce a) - B (f_enforce b)) with (- (B (f_enforce b) - B (f_enforce a))) by ring. rewrite rnd_opp, signed_of_abs by (rewrite Rabs_Ropp; exact RR). rewrite Rabs_Ropp. symmetry. exact VD.
  - intros T. destruct (enforce_range a FA) as (_ & [k A2] & A3). destruct (enforce_range b FB) as (_ & [l B2] & B3). destruct T as [m T].
    assert (E : B (f_enforce b) - B (f_enforce a) = 2 * half_turn * IZR (m + l - k)) by (rewrite B2, A2, T, minus_IZR, plus_IZR; ring).
    assert (Z0 : (m + l - k = 0)%Z).
    { rewrite E in RD. rewrite Rabs_mult, (Rabs_pos_eq (2 * half_turn)) in RD by lra. assert (Rabs (IZR (m + l - k)) < 1) by (apply Rmult_lt_reg_l with (2 * half_turn); lra). rewrite <- abs_IZR in H. apply lt_IZR in H. lia. }
    rewrite Z0, Rmult_0_r in E. rewrite VD, E, round_0 by typeclasses eauto. rewrite Rabs_R0. unfold Rabs. destruct (Rcase_abs _); lra.
  - exists (Rabs (signed_of (B (f_enforce b) - B (f_enforce a)))). split; [apply exact_distance; auto|]. rewrite VD, (signed_of_abs (B (f_enforce b) - B (f_enforce a))) by lra. apply lip.
    change (two_to (-51)) with (bpow radix2 (3 - 54)). rewrite <- b_opaque. apply rnd_half; [lia|]. rewrite b_3. lra.
  - exact F.
  - unfold d, f_revolute_distance. rewrite DV. reflexivity.
Qed.
Print Assumptions C164_distance.

(** Without a cut between them, the signed distance leads from the first to the second within 2^-52. *)
Theorem C164_signed a b : fin a = true -> fin b = true -> Rabs (B (f_enforce b) - B (f_enforce a)) <= half_turn ->
  exists e, turns (B a + e) (B b) /\ Rabs (B (f_signed_distance a b) - e) <= two_to (-52).
Proof.
  intros FA FB H. destruct (signed_val a b FA FB) as [F V]. destruct (enforce_range a FA) as (_ & [k A2] & A3). destruct (enforce_range b FB) as (_ & [l B2] & B3). pose proof pi_range as PR.
  exists (B (f_enforce b) - B (f_enforce a)). split; [exists (k - l)%Z; rewrite minus_IZR, A2, B2; ring|].
  assert (H' := H). assert (HD : - half_turn <= B (f_enforce b) - B (f_enforce a) <= half_turn) by (revert H; unfold Rabs; destruct (Rcase_abs _); lra).
  set (D := B (f_enforce b) - B (f_enforce a)) in *. assert (L : - half_turn <= rndN D) by (rewrite <- (rnd_same (- half_turn)) by (apply fmt_opp, fmtB); apply rnd_mono; lra).
  assert (U : rndN D <= half_turn) by (rewrite <- (rnd_same half_turn) by apply fmtB; apply rnd_mono; lra).
  assert (E : B (f_signed_distance a b) = rndN D).
  { rewrite V. unfold signed_of. destruct (MathModel.Rleb (rndN D) (- half_turn)) eqn:E1; [apply MathProps.Rleb_spec in E1; lra|]. rewrite (proj2 (MathProps.Rltb_false _ _)) by lra. reflexivity. }
  rewrite E. change (two_to (-52)) with (bpow radix2 (2 - 54)). rewrite <- b_opaque. apply rnd_half; [lia|]. rewrite b_2. lra.
Qed.
Print Assumptions C164_signed.

(** ** Interpolation *)
Lemma normal (m e : Z) (x : fl) sg m' e' : binary_normalize 53 1024 eq_refl eq_refl NE m e false = x -> B2FF 53 1024 x = F754_finite sg m' e' ->
  Rlt_bool (Rabs (rndN (F2R (Float radix2 m e)))) (b 1024) = true -> rndN (F2R (Float radix2 m e)) = F2R (Float radix2 (cond_Zopp sg (Zpos m')) e').
Proof.
  intros N E L. pose proof (binary_normalize_correct 53 1024 eq_refl eq_refl NE m e false) as C. cbn zeta in C.
  rewrite b_opaque in L. change (BinarySingleNaN.round_mode NE) with ZnearestE in C. rewrite L in C. destruct C as [C _]. rewrite N in C. destruct (B_FF x _ _ _ E) as [_ V]. rewrite V in C. symmetry. exact C.
Qed.
Lemma b_52' : b (-52) = / 4503599627370496. Proof. rewrite b_opaque. cbn. reflexivity. Qed.
Lemma up_to_pi : rndN (half_turn + b (-52)) = half_turn.
Proof.
  destruct pi_val as [_ PV]. rewrite PV. rewrite b_52'.
  replace (7074237752028440 / 2251799813685248 + / 4503599627370496) with (F2R (Float radix2 14148475504056881 (-52))) by (unfold F2R; cbn; lra).
  rewrite (normal _ _ _ false 7074237752028440 (-51) eq_refl); [unfold F2R; cbn; lra|vm_compute; reflexivity|].
  apply Rlt_bool_true. apply Rle_lt_trans with (b 3).
  - apply rnd_bound; [lia|]. rewrite b_3. apply Rabs_le. unfold F2R. cbn. lra.
  - apply b_lt. lia.
Qed.
Lemma share_rnd z c : fmtd z -> 0 <= c <= 1 -> (0 <= z -> 0 <= rndN (z * c) <= z) /\ (z <= 0 -> z <= rndN (z * c) <= 0).
Proof.
  intros F C. assert (Z0 : rndN 0 = 0) by (apply round_0; typeclasses eauto).
  split; intros H; split; (rewrite <- Z0 at 1 || idtac); try (rewrite <- Z0; apply rnd_mono; nra); try (rewrite <- (rnd_same z F) at 2; apply rnd_mono; nra); try (rewrite <- (rnd_same z F) at 1; apply rnd_mono; nra).
Qed.
Lemma between x y : Rabs x <= y <-> - y <= x <= y.
Proof. unfold Rabs. destruct (Rcase_abs x); split; lra. Qed.

(** InterpolateContinuousRevolute of finite doubles is finite and in [-M_PI, M_PI]; within 2^-49, counting turns, it is the
    given share of a way from the first to the second that is no more than 2^-51 longer than the shortest; ratios are clamped,
    and at 0 or less it is exactly EnforceContinuousRevoluteBounds of the first. *)
Theorem C164_interpolate a b r : fin a = true -> fin b = true -> fin r = true -> let i := f_interpolate_revolute a b r in
  fin i = true /\ - half_turn <= B i <= half_turn /\
  (exists e s x, turns (B a + e) (B b) /\ shortest_way (B a) (B b) s /\ Rabs e <= s + two_to (-51) /\
     turns (B a + clamped (B r) * e) x /\ Rabs (B i - x) <= two_to (-49)) /\
  (B r <= 0 -> B i = B (f_enforce a)).
Proof.
  intros FA FB FR i. destruct (raw_val a b FA FB) as (F & V & RD & RR). destruct (enforce_range a FA) as (A1 & [k A2] & A3). destruct (enforce_range b FB) as (B1 & [l B2] & B3).
  destruct pi_val as [F1 PV]. assert (P7 : half_turn < 7 / 2) by (rewrite PV; lra). clear PV. destruct minus_pi_val as [F2 V2]. destruct twopi_val as [F3 V3]. destruct twopi'_val as [F4 V4]. destruct zero_val as [F0 V0]. pose proof pi_range as PR. pose proof (exact_distance a b FA FB) as SH.
  destruct (unit_val r FR) as [FU VU]. pose proof (clamped_range (B r)) as CR. assert (C0 : B r <= 0 -> clamped (B r) = 0) by (unfold clamped, Rmax, Rmin; repeat destruct (Rle_dec _ _); lra).
  assert (E49 : two_to (-49) = 8 * / 4503599627370496) by (change (two_to (-49)) with (/ 562949953421312); lra).
  assert (E51 : two_to (-51) = 2 * / 4503599627370496) by (change (two_to (-51)) with (/ 2251799813685248); lra).
  pose proof (abs_val (b64_minus NE (f_enforce b) (f_enforce a))) as [AF AV].
  unfold i, f_interpolate_revolute. cbn zeta. rewrite le_R, AV by (auto; rewrite AF; auto).
  set (raw := b64_minus NE (f_enforce b) (f_enforce a)) in *. set (q1 := B (f_enforce a)) in *. set (q2 := B (f_enforce b)) in *. set (c := clamped (B r)) in *.
  set (D := q2 - q1) in *. rewrite signed_of_abs in SH by lra. rewrite <- V in RR. assert (R3 : Rabs (B raw - D) <= VoxelFloat.b (3 - 54)) by (rewrite V; apply rnd_half; [lia|rewrite b_3; lra]). rewrite b_51 in R3.
  assert (FM : fmtd (B raw)) by apply fmtB. destruct (MathModel.Rleb (Rabs (B raw)) half_turn) eqn:E; [apply MathProps.Rleb_spec in E|apply MathProps.Rleb_false in E].
  - assert (R2 : Rabs (B raw - D) <= VoxelFloat.b (2 - 54)).
    { rewrite V. apply rnd_half; [lia|]. rewrite b_2. apply between in R3. apply between in E. apply Rabs_def1; lra. }
    rewrite b_52 in R2. apply between in R2. apply between in E.
    assert (MB : Rabs (B raw * c) < 4) by (apply Rabs_def1; nra).
    destruct (mult_val raw (f_unit r) 2 F FU) as [M1 M2]; [lia|rewrite VU, b_2; fold c; lra|]. rewrite VU in M2. fold c in M2.
    assert (ME : Rabs (rndN (B raw * c) - B raw * c) <= VoxelFloat.b (2 - 54)) by (apply rnd_half; [lia|rewrite b_2; exact MB]). rewrite b_52 in ME. apply between in ME.
    destruct (share_rnd (B raw) c FM CR) as [SP SN]. set (m := rndN (B raw * c)) in *.
    assert (SB : - half_turn - VoxelFloat.b (-52) <= q1 + m <= half_turn + VoxelFloat.b (-52)) by (rewrite b_52'; unfold D in *; destruct (Rle_dec 0 (B raw)) as [Q|Q]; [specialize (SP Q)|specialize (SN ltac:(lra))]; lra).
    destruct (plus_val (f_enforce a) (b64_mult NE raw (f_unit r)) 3 A1 M1) as [S1 S2]; [lia|rewrite M2, b_3; fold q1; rewrite b_52' in SB; apply between; lra|]. rewrite M2 in S2. fold q1 in S2. rewrite S2.
    assert (SE : Rabs (rndN (q1 + m) - (q1 + m)) <= VoxelFloat.b (2 - 54)) by (apply rnd_half; [lia|rewrite b_2; rewrite b_52' in SB; apply Rabs_def1; lra]). rewrite b_52 in SE. apply between in SE.
    split; [exact S1|]. split; [|split].
    + split; [rewrite <- up_to_pi, <- rnd_opp; apply rnd_mono; lra|rewrite <- up_to_pi; apply rnd_mono; lra].
    + exists D, (half_turn - Rabs (Rabs D - half_turn)), (q1 + c * D). split; [exists (k - l)%Z; unfold D; rewrite minus_IZR, A2, B2; ring|]. split; [exact SH|].
      split; [rewrite E51; unfold Rabs; repeat (destruct (Rcase_abs _)); lra|]. split; [exists k; rewrite A2; ring|]. rewrite E49. apply between. assert (W : - / 4503599627370496 <= c * (B raw - D) <= / 4503599627370496) by (clear - R2 CR; nra). lra.
    + intros R0. unfold m. rewrite (C0 R0), Rmult_0_r, round_0, Rplus_0_r by typeclasses eauto. apply rnd_same. apply fmtB.
  - assert (DB : half_turn < Rabs D).
    { apply Rnot_le_lt. intros Q. apply between in Q. revert E. apply Rle_not_lt. rewrite V. apply between. split; [rewrite <- (rnd_same (- half_turn)) by (apply fmt_opp, fmtB)|rewrite <- (rnd_same half_turn) by apply fmtB]; apply rnd_mono; lra. }
    set (sg := fun z : R => if MathModel.Rltb 0 (B raw) then 2 * half_turn - z else - (2 * half_turn) - z).
    rewrite (lt_R f_0 raw), V0 by auto.
    set (df := if MathModel.Rltb 0 (B raw) then b64_minus NE f_2pi raw else b64_minus NE (b64_opp f_2pi) raw).
    assert (RR' := RR). apply between in RR'.
    assert (DF : fin df = true /\ B df = sg (B raw)).
    { unfold df, sg. destruct (MathModel.Rltb 0 (B raw)) eqn:Q; [apply MathProps.Rltb_spec in Q; rewrite Rabs_pos_eq in E by lra|apply MathProps.Rltb_false in Q; rewrite Rabs_left1 in E by lra].
      - destruct (minus_val f_2pi raw 3 F3 F) as [S1 S2]; [lia|rewrite V3, b_3; apply between; lra|]. split; [exact S1|]. rewrite S2, V3. apply exact_minus; [apply fmt_2pi|exact FM|lra].
      - destruct (minus_val (b64_opp f_2pi) raw 3 F4 F) as [S1 S2]; [lia|rewrite V4, b_3; apply between; lra|]. split; [exact S1|]. rewrite S2, V4.
        replace (- (2 * half_turn) - B raw) with (- B raw - 2 * half_turn) by ring. apply exact_minus; [apply fmt_opp, FM|apply fmt_2pi|lra]. }
    destruct DF as [DF1 DF2]. assert (FD : fmtd (B df)) by apply fmtB.
    assert (DS : Rabs (B df) <= half_turn) by (rewrite DF2; unfold sg; revert E; unfold Rabs at 1; destruct (MathModel.Rltb 0 (B raw)) eqn:Q; [apply MathProps.Rltb_spec in Q|apply MathProps.Rltb_false in Q]; intros E; apply between; destruct (Rcase_abs _); lra).
    apply between in DS. assert (MB : Rabs (B df * c) < 4) by (apply Rabs_def1; nra).
    destruct (mult_val df (f_unit r) 2 DF1 FU) as [M1 M2]; [lia|rewrite VU, b_2; fold c; lra|]. rewrite VU in M2. fold c in M2.
    assert (ME : Rabs (rndN (B df * c) - B df * c) <= VoxelFloat.b (2 - 54)) by (apply rnd_half; [lia|rewrite b_2; exact MB]). rewrite b_52 in ME. apply between in ME.
    destruct (share_rnd (B df) c FD CR) as [SP SN]. set (m := rndN (B df * c)) in *.
    assert (SM : - half_turn <= m <= half_turn) by (destruct (Rle_dec 0 (B df)) as [Q|Q]; [specialize (SP Q)|specialize (SN ltac:(lra))]; lra).
    destruct (minus_val (f_enforce a) (b64_mult NE df (f_unit r)) 3 A1 M1) as [S1 S2]; [lia|rewrite M2, b_3; fold q1; apply between; lra|]. rewrite M2 in S2. fold q1 in S2.
    assert (SE : Rabs (rndN (q1 - m) - (q1 - m)) <= VoxelFloat.b (3 - 54)) by (apply rnd_half; [lia|rewrite b_3; apply Rabs_def1; lra]). rewrite b_51 in SE. apply between in SE. rewrite <- S2 in SE.
    set (i0 := b64_minus NE (f_enforce a) (b64_mult NE df (f_unit r))) in *.
    assert (IB : - (2 * half_turn) <= B i0 <= 2 * half_turn) by (rewrite S2; split; [rewrite <- (rnd_same (- (2 * half_turn))) by (apply fmt_opp, fmt_2pi)|rewrite <- (rnd_same (2 * half_turn)) by apply fmt_2pi]; apply rnd_mono; lra).
    assert (I0 : B r <= 0 -> B i0 = q1) by (intros R0; rewrite S2; unfold m; rewrite (C0 R0), Rmult_0_r, round_0, Rminus_0_r by typeclasses eauto; apply rnd_same; apply fmtB).
    assert (MAIN : forall (z : Z) y, y = B i0 + 2 * half_turn * IZR z -> exists e s x, turns (B a + e) (B b) /\ shortest_way (B a) (B b) s /\ Rabs e <= s + two_to (-51) /\ turns (B a + c * e) x /\ Rabs (y - x) <= two_to (-49)).
    { intros z y Y. exists (- sg D), (half_turn - Rabs (Rabs D - half_turn)), (q1 + c * - sg D + 2 * half_turn * IZR z). apply between in R3.
      assert (SG : (0 < D /\ sg = (fun z => 2 * half_turn - z)) \/ (D < 0 /\ sg = (fun z => - (2 * half_turn) - z))).
      { unfold sg. destruct (MathModel.Rltb 0 (B raw)) eqn:Q; [apply MathProps.Rltb_spec in Q; left|apply MathProps.Rltb_false in Q; right]; (split; [|reflexivity]); revert DB; unfold Rabs; destruct (Rcase_abs D); lra. }
      split; [destruct SG as [[_ ->]|[_ ->]]; [exists (k - l + 1)%Z|exists (k - l - 1)%Z]; unfold D; rewrite ?plus_IZR, !minus_IZR, A2, B2; ring|]. split; [exact SH|].
      split; [|split; [exists (k + z)%Z; rewrite plus_IZR, A2; ring|]].
      - rewrite E51. revert DB RD. destruct SG as [[SD ->]|[SD ->]]; unfold Rabs; repeat (destruct (Rcase_abs _)); lra.
      - rewrite E49. assert (DD : B df - sg D = D - B raw) by (rewrite DF2; destruct SG as [[_ ->]|[_ ->]]; ring). apply between. rewrite Y.
        assert (W : - (2 * / 4503599627370496) <= c * (B df - sg D) <= 2 * / 4503599627370496) by (rewrite DD; clear - R3 CR; nra). lra. }
    rewrite (lt_R f_pi i0), (lt_R i0), V2 by auto.
    destruct (MathModel.Rltb half_turn (B i0)) eqn:Q1; [apply MathProps.Rltb_spec in Q1|apply MathProps.Rltb_false in Q1; destruct (MathModel.Rltb (B i0) (- half_turn)) eqn:Q2; [apply MathProps.Rltb_spec in Q2|apply MathProps.Rltb_false in Q2]].
    + destruct (minus_val i0 f_2pi 3 S1 F3) as [T1 T2]; [lia|rewrite V3, b_3; apply between; lra|]. rewrite V3, exact_minus in T2; [|apply fmtB|apply fmt_2pi|lra]. rewrite T2.
      split; [exact T1|]. split; [lra|]. split; [apply (MAIN (-1)%Z); lra|]. intros R0. specialize (I0 R0). unfold q1 in *. lra.
    + destruct (plus_val i0 f_2pi 3 S1 F3) as [T1 T2]; [lia|rewrite V3, b_3; apply between; lra|]. rewrite V3 in T2. replace (B i0 + 2 * half_turn) with (2 * half_turn - - B i0) in T2 by ring. rewrite exact_minus in T2; [|apply fmt_2pi|apply fmt_opp, fmtB|lra]. rewrite T2.
      split; [exact T1|]. split; [lra|]. split; [apply (MAIN 1%Z); lra|]. intros R0. specialize (I0 R0). unfold q1 in *. lra.
    + split; [exact S1|]. split; [lra|]. split; [apply (MAIN 0%Z); lra|]. exact I0.
Qed.
Print Assumptions C164_interpolate.

(** ** Ranges *)
Lemma range_val a b : fin a = true -> fin b = true -> fin (f_revolute_range a b) = true /\ 0 <= B (f_revolute_range a b) <= 2 * half_turn.
Proof.
  intros FA FB. destruct (C164_distance a b FA FB) as (_ & DB & _ & _ & _ & F & V). rewrite <- V in DB. destruct zero_val as [F0 V0]. destruct twopi_val as [F3 V3]. pose proof pi_range as PR.
  assert (SB : - half_turn <= B (f_signed_distance a b) <= half_turn) by (apply between; lra).
  unfold f_revolute_range. cbn zeta. rewrite le_R, V0 by auto. destruct (MathModel.Rleb 0 (B (f_signed_distance a b))) eqn:E; [apply MathProps.Rleb_spec in E; split; [exact F|lra]|apply MathProps.Rleb_false in E].
  destruct (plus_val f_2pi (f_signed_distance a b) 3 F3 F) as [A C]; [lia|rewrite V3, b_3; apply between; lra|]. split; [exact A|]. rewrite C, V3.
  assert (Z0 : rndN 0 = 0) by (apply round_0; typeclasses eauto). split; [rewrite <- Z0|rewrite <- (rnd_same (2 * half_turn)) at 2 by apply fmt_2pi]; apply rnd_mono; lra.
Qed.
(** For finite doubles the range between two angles is in [0, 2 M_PI], and CheckInContinuousRevoluteBounds accepts both ends,
    whatever turns they are given with, in spite of the rounding. *)
Theorem C164_ends a b a' b' : fin a = true -> fin b = true -> fin a' = true -> fin b' = true -> turns (B a) (B a') -> turns (B b) (B b') ->
  (fin (f_revolute_range a b) = true /\ 0 <= B (f_revolute_range a b) <= 2 * half_turn) /\
  f_in_revolute_bounds a b a' = true /\ f_in_revolute_bounds a b b' = true.
Proof.
  intros FA FB FA' FB' TA TB. split; [apply range_val; auto|]. pose proof pi_range as PR. destruct zero_val as [F0 V0]. destruct twopi_val as [F3 V3]. destruct (range_val a b FA FB) as [FR VR].
  assert (SAME : forall x y, fin x = true -> fin y = true -> turns (B x) (B y) -> B (f_enforce y) = B (f_enforce x)).
  { intros x y FX FY T. destruct (enforce_range x FX) as (_ & TX & RX). destruct (enforce_range y FY) as (_ & TY & RY). symmetry. apply (MathProps.same_unique half_turn); [lra| |apply Rabs_def1; lra].
    apply (MathProps.same_trans half_turn) with (B x); [apply MathProps.same_sym; exact TX|]. apply (MathProps.same_trans half_turn) with (B y); [exact T|exact TY]. }
  unfold f_in_revolute_bounds, f_in_revolute_range. cbn zeta.
  destruct (enforce_range a FA) as (EA & _ & _). destruct (enforce_range a' FA') as (EA' & _ & _). destruct (enforce_range b' FB') as (EB' & _ & _).
  destruct (signed_val (f_enforce a) (f_enforce a') EA EA') as [D1 D2]. destruct (signed_val (f_enforce a) (f_enforce b') EA EB') as [D3 D4].
  rewrite !enforce_twice in D2, D4 by auto. rewrite (SAME a a') in D2 by auto. rewrite (SAME b b') in D4 by auto. rewrite Rminus_eq_0, round_0 in D2 by typeclasses eauto.
  assert (S0 : signed_of 0 = 0) by (unfold signed_of; rewrite (proj2 (MathProps.Rleb_false _ _)), (proj2 (MathProps.Rltb_false _ _)) by lra; reflexivity). rewrite S0 in D2. clear S0.
  destruct (signed_val a b FA FB) as [D5 D6]. rewrite <- D6 in D4.
  split.
  - rewrite (proj2 (le_spec f_0 _ F0 D1)) by lra. apply le_spec; auto. lra.
  - unfold f_revolute_range in *. cbn zeta in *. rewrite !(le_R f_0), D4, V0 in * by auto. destruct (MathModel.Rleb 0 (B (f_signed_distance a b))) eqn:E; [apply le_spec; auto; lra|].
    apply MathProps.Rleb_false in E. destruct (C164_distance a b FA FB) as (_ & DB & _ & _ & _ & _ & V). rewrite <- V in DB. assert (SB : - half_turn <= B (f_signed_distance a b) <= half_turn) by (apply between; lra).
    destruct (plus_val f_2pi (f_signed_distance (f_enforce a) (f_enforce b')) 3 F3 D3) as [X1 X2]; [lia|rewrite V3, b_3, D4; apply between; lra|].
    destruct (plus_val f_2pi (f_signed_distance a b) 3 F3 D5) as [Y1 Y2]; [lia|rewrite V3, b_3; apply between; lra|]. apply le_spec; auto. rewrite X2, Y2, D4. lra.
Qed.
Print Assumptions C164_ends.

(** AddContinuousRevoluteValues, unless the sum is too large for a double: in (-M_PI, M_PI], and within the rounding of one
    addition the sum, counting turns. *)
Theorem C164_add a c : fin a = true -> fin c = true -> Rabs (B a + B c) <= two_to 1023 ->
  fin (f_add_revolute a c) = true /\ - half_turn < B (f_add_revolute a c) <= half_turn /\
  exists x, turns x (B (f_add_revolute a c)) /\ Rabs (x - (B a + B c)) <= two_to (-53) * Rabs (B a + B c).
Proof.
  intros FA FC H. rewrite <- b_opaque in H. destruct (plus_val a c 1023 FA FC ltac:(lia) H) as [S1 S2]. destruct (enforce_range _ S1) as (E1 & E2 & E3).
  split; [exact E1|]. split; [exact E3|]. exists (B (b64_plus NE a c)). split; [exact E2|]. rewrite S2.
  destruct (FLT_plus_error_N_ex radix2 (-1074) 53 (fun x => negb (Z.even x)) (B a) (B c)) as (eps & HE & E); [apply fmtB|apply fmtB|].
  change (rndN (B a + B c)) with (round radix2 (FLT_exp (-1074) 53) (Znearest (fun x => negb (Z.even x))) (B a + B c)). rewrite E.
  replace ((B a + B c) * (1 + eps) - (B a + B c)) with (eps * (B a + B c)) by ring. rewrite Rabs_mult. apply Rmult_le_compat_r; [apply Rabs_pos|].
  eapply Rle_trans; [exact HE|]. eapply Rle_trans; [apply u_rod1pu_ro_le_u_ro|]. unfold u_ro. change (two_to (-53)) with (/ 9007199254740992). change (bpow radix2 (- (53) + 1)) with (/ 4503599627370496). lra.
Qed.
Print Assumptions C164_add.

(** ** What does not hold *)
Definition of_bits (z : Z) : fl := b64_of_bits z.
Lemma differ (x y : fl) sx mx ex sy my ey : B2FF 53 1024 x = F754_finite sx mx ex -> B2FF 53 1024 y = F754_finite sy my ey ->
  - half_turn < F2R (Float radix2 (cond_Zopp sx (Zpos mx)) ex) <= half_turn -> - half_turn < F2R (Float radix2 (cond_Zopp sy (Zpos my)) ey) <= half_turn ->
  F2R (Float radix2 (cond_Zopp sx (Zpos mx)) ex) <> F2R (Float radix2 (cond_Zopp sy (Zpos my)) ey) -> fin x = true /\ fin y = true /\ ~ turns (B x) (B y).
Proof.
  intros X Y RX RY N. destruct (B_FF _ _ _ _ X) as [FX VX]. destruct (B_FF _ _ _ _ Y) as [FY VY]. rewrite VX, VY. split; [exact FX|]. split; [exact FY|].
  intros T. apply N. pose proof pi_range. apply (MathProps.same_unique half_turn); [lra|exact T|apply Rabs_def1; lra].
Qed.
(** Two different angles at distance 0: M_PI and the double after -M_PI. *)
Theorem C164_zero_refuted : exists a b, fin a = true /\ fin b = true /\ ~ turns (B a) (B b) /\ B (f_revolute_distance a b) = 0.
Proof.
  exists (of_bits 13837628693406821655), (of_bits 4614256656552045848).
  destruct (differ (of_bits 13837628693406821655) (of_bits 4614256656552045848) true 7074237752028439 (-51) false 7074237752028440 (-51)) as (F1 & F2 & N).
  1, 2: vm_compute; reflexivity.
  1, 2: destruct pi_val as [_ ->]; unfold F2R; cbn; lra.
  { unfold F2R. cbn. lra. }
  split; [exact F1|]. split; [exact F2|]. split; [exact N|].
  assert (E : B2FF 53 1024 (f_revolute_distance (of_bits 13837628693406821655) (of_bits 4614256656552045848)) = F754_zero false) by (vm_compute; reflexivity).
  destruct (f_revolute_distance _ _); cbn [B2FF] in E; try discriminate. reflexivity.
Qed.
Print Assumptions C164_zero_refuted.
(** With ratio 1 the interpolation need not end at the second angle. *)
Theorem C164_end_refuted : exists a b, fin a = true /\ fin b = true /\ ~ turns (B b) (B (f_interpolate_revolute a b f_one)).
Proof.
  exists (of_bits 4602678819173646916), (of_bits 4591870180074735499).
  destruct (differ (of_bits 4591870180074735499) (f_interpolate_revolute (of_bits 4602678819173646916) (of_bits 4591870180074735499) f_one) false 7205759411570571 (-56) false 7205759411570572 (-56)) as (F1 & F2 & N).
  1, 2: vm_compute; reflexivity.
  1, 2: destruct pi_val as [_ ->]; unfold F2R; cbn; lra.
  { unfold F2R. cbn. lra. }
  split; [vm_compute; reflexivity|]. split; [exact F1|exact N].
Qed.
Print Assumptions C164_end_refuted.
(** Adding overflows; of an infinite sum, and of any infinity or NaN, the bounds make NaN. *)
Theorem C164_overflow_refuted : exists a c, fin a = true /\ fin c = true /\ is_nan 53 1024 (f_add_revolute a c) = true /\
  is_nan 53 1024 (f_enforce (B754_infinity 53 1024 false)) = true.
Proof. exists (of_bits 9218868437227405311), (of_bits 9218868437227405311). repeat split; vm_compute; reflexivity. Qed.
Print Assumptions C164_overflow_refuted.

(** The hypotheses are met: 0.5, 3 and -3 are finite, and 3 and -3 lie on different sides of the cut. *)
Example C164_hyp : forallb (fun z => fin (of_bits z)) [4602678819172646912; 4613937818241073152; 13837309855095848960]%Z = true /\
  bits_of_b64 (f_interpolate_revolute (of_bits 4613937818241073152) (of_bits 13837309855095848960) (of_bits 4602678819172646912)) = 4614256656552045848%Z.
Proof. split; vm_compute; reflexivity. Qed.
