(** Decimal digits, and the %g format. *)
From Coq Require Import String Ascii Reals Lra Psatz.
From Verif Require Import Base VoxelFloat FloatPrintModel.
From Flocq Require Import IEEE754.Bits IEEE754.Binary Core.
Open Scope string_scope.
Open Scope R_scope.

Definition ten : radix := Build_radix 10 eq_refl.
Definition number (l : list Z) : Z := fold_left (fun a d => 10 * a + d)%Z l 0%Z.
Definition digit (d : Z) : Prop := (0 <= d <= 9)%Z.

Lemma p10 k : (0 <= k)%Z -> IZR (10 ^ k) = bpow ten k.
Proof. intros H. exact (IZR_Zpower ten k H). Qed.
Lemma p10n n : IZR (10 ^ Z.of_nat n) = bpow ten (Z.of_nat n).
Proof. apply p10. lia. Qed.

Lemma number_acc l : forall a, fold_left (fun a d => 10 * a + d)%Z l a = (a * 10 ^ Z.of_nat (length l) + number l)%Z.
Proof.
  unfold number. induction l as [|d l IH]; intros a; cbn [fold_left length]; [rewrite Z.mul_1_r; lia|].
  rewrite (IH (10 * a + d)%Z), (IH (10 * 0 + d)%Z). rewrite Nat2Z.inj_succ, Z.pow_succ_r by lia. ring.
Qed.
Lemma number_app a b : number (a ++ b) = (number a * 10 ^ Z.of_nat (length b) + number b)%Z.
Proof. unfold number at 1. rewrite fold_left_app, number_acc. reflexivity. Qed.
Lemma number_repeat n : number (repeat 0%Z n) = 0%Z.
Proof. induction n; [reflexivity|]. cbn [repeat]. change (0%Z :: repeat 0%Z n) with ([0%Z] ++ repeat 0%Z n)%list. rewrite number_app, IHn. reflexivity. Qed.
Lemma digits_length n : forall d, length (digits n d) = n.
Proof. induction n; intros d; cbn [digits]; [reflexivity|]. rewrite app_length, IHn. cbn. lia. Qed.
Lemma digits_digit n : forall d, Forall digit (digits n d).
Proof.
  induction n; intros d; cbn [digits]; [constructor|]. apply Forall_app. split; [apply IHn|]. constructor; [|constructor]. unfold digit.
  pose proof (Z.mod_pos_bound d 10). lia.
Qed.
Lemma digits_number n : forall d, (0 <= d < 10 ^ Z.of_nat n)%Z -> number (digits n d) = d.
Proof.
  induction n; intros d H; cbn [digits].
  - cbn in H |- *. unfold number. cbn. lia.
  - rewrite number_app. cbn [length]. rewrite IHn.
    + change (10 ^ Z.of_nat 1)%Z with 10%Z. unfold number. cbn [fold_left]. pose proof (Z.div_mod d 10). lia.
    + rewrite Nat2Z.inj_succ, Z.pow_succ_r in H by lia. split; [apply Z.div_pos; lia|]. apply Z.div_lt_upper_bound; lia.
Qed.
Lemma digits_zeros j : forall n d, digits (n + j) (d * 10 ^ Z.of_nat j) = (digits n d ++ repeat 0%Z j)%list.
Proof.
  induction j as [|j IH]; intros n d.
  - cbn [repeat]. rewrite Nat.add_0_r, app_nil_r, Z.mul_1_r. reflexivity.
  - rewrite Nat.add_succ_r. cbn [digits]. rewrite Nat2Z.inj_succ, Z.pow_succ_r by lia. replace (d * (10 * 10 ^ Z.of_nat j))%Z with (d * 10 ^ Z.of_nat j * 10)%Z by ring.
    rewrite Z.div_mul, Z.mod_mul by lia. rewrite IH, <- app_assoc. f_equal. replace (S j) with (j + 1)%nat by lia. rewrite repeat_app. reflexivity.
Qed.
Lemma strip_split l : exists k, l = (strip l ++ repeat 0%Z k)%list.
Proof.
  induction l as [|d l (k & IH)]; [exists 0%nat; reflexivity|]. cbn [strip]. destruct (strip l) as [|d' l'] eqn:E.
  - destruct (Z.eqb_spec d 0) as [->|N]; [exists (S k); cbn; f_equal; exact IH|exists k; cbn; f_equal; exact IH].
  - exists k. cbn. f_equal. exact IH.
Qed.
Lemma strip_digit l : Forall digit l -> Forall digit (strip l).
Proof. intros H. destruct (strip_split l) as (k & E). rewrite E in H. apply Forall_app in H. apply H. Qed.
Lemma strip_zeros k : strip (repeat 0%Z k) = [].
Proof. induction k; [reflexivity|]. cbn. rewrite IHk. reflexivity. Qed.

(** ** Rounding *)
Section Value.
Variables N D : Z.
Hypothesis N0 : (0 < N)%Z.
Hypothesis D0 : (0 < D)%Z.
Let v : R := IZR N / IZR D.
Lemma Dr : 0 < IZR D. Proof. apply IZR_lt. lia. Qed.
Lemma Nr : 0 < IZR N. Proof. apply IZR_lt. lia. Qed.
Lemma v0 : 0 < v. Proof. apply Rdiv_lt_0_compat; [apply Nr|apply Dr]. Qed.
Lemma vD : v * IZR D = IZR N. Proof. unfold v. pose proof Dr. field. lra. Qed.
Lemma at_least_spec X : at_least N D X = true <-> bpow ten X <= v.
Proof.
  pose proof Dr as HD. pose proof vD as E. unfold at_least. destruct (Z.leb_spec 0 X) as [H|H].
  - rewrite Z.leb_le. rewrite <- (p10 X H). split; intros L.
    + apply IZR_le in L. rewrite mult_IZR, <- E in L. apply Rmult_le_reg_r in L; assumption.
    + apply le_IZR. rewrite mult_IZR, <- E. apply Rmult_le_compat_r; lra.
  - rewrite Z.leb_le. assert (P : bpow ten X * bpow ten (- X) = 1) by (rewrite <- bpow_plus, Z.add_opp_diag_r; reflexivity). pose proof (bpow_gt_0 ten (- X)) as B.
    split; intros L.
    + apply IZR_le in L. rewrite mult_IZR, (p10 (- X)) in L by lia. apply (Rmult_le_reg_r (bpow ten (- X))); [exact B|]. rewrite P. unfold v. apply (Rmult_le_reg_r (IZR D)); [exact HD|].
      replace (IZR N / IZR D * bpow ten (- X) * IZR D) with (IZR N * bpow ten (- X)) by (field; lra). lra.
    + apply le_IZR. rewrite mult_IZR, (p10 (- X)) by lia. apply (Rmult_le_compat_r (bpow ten (- X))) in L; [|lra]. rewrite P in L. rewrite <- E.
      replace (v * IZR D * bpow ten (- X)) with (v * bpow ten (- X) * IZR D) by ring. rewrite <- (Rmult_1_l (IZR D)) at 1. apply Rmult_le_compat_r; lra.
Qed.
Lemma exponent_spec fuel : forall X, v < bpow ten (X + 1) -> bpow ten (X - Z.of_nat fuel) <= v ->
  bpow ten (exponent fuel N D X) <= v < bpow ten (exponent fuel N D X + 1).
Proof.
  induction fuel as [|f IH]; intros X U L; cbn [exponent]; [rewrite Z.sub_0_r in L; auto|].
  destruct (at_least N D X) eqn:E; [split; [apply at_least_spec; exact E|exact U]|].
  apply IH.
  - replace (X - 1 + 1)%Z with X by lia. destruct (Rlt_or_le v (bpow ten X)) as [A|A]; [exact A|]. apply at_least_spec in A. congruence.
  - replace (X - 1 - Z.of_nat f)%Z with (X - Z.of_nat (S f))%Z by lia. exact L.
Qed.
End Value.
Lemma nearest_spec N D z : (0 < D)%Z -> Rabs (IZR (nearest N D) - IZR N / IZR D) <= Rabs (IZR z - IZR N / IZR D) /\ Rabs (IZR (nearest N D) - IZR N / IZR D) <= / 2.
Proof.
  intros D0. assert (HD : 0 < IZR D) by (apply IZR_lt; lia).
  assert (W : (- D <= 2 * (nearest N D * D - N) <= D)%Z).
  { unfold nearest. pose proof (Z.div_mod N D ltac:(lia)) as A. pose proof (Z.mod_pos_bound N D D0) as B.
    set (q := (N / D)%Z) in *. set (r := (N mod D)%Z) in *. clearbody q r. destruct (Z.ltb_spec (2 * r) D); [nia|]. destruct (Z.ltb_spec D (2 * r)); [nia|]. destruct (Z.even q); nia. }
  set (n := nearest N D) in *. clearbody n. set (v := IZR N / IZR D). assert (E : v * IZR D = IZR N) by (unfold v; field; lra).
  assert (H : Rabs (IZR n - v) <= / 2).
  { destruct W as (W1 & W2). apply IZR_le in W1, W2. rewrite mult_IZR, minus_IZR, mult_IZR, <- E in W1, W2. rewrite opp_IZR in W1. apply Rabs_le.
    replace (2 * (IZR n * IZR D - v * IZR D)) with (2 * (IZR n - v) * IZR D) in W1, W2 by ring. split; apply (Rmult_le_reg_r (2 * IZR D)); lra. }
  split; [|exact H]. destruct (Z.eq_dec z n) as [->|NE]; [lra|]. assert (1 <= Rabs (IZR z - IZR n)) by (rewrite <- minus_IZR, <- abs_IZR; apply IZR_le; lia).
  pose proof (Rabs_triang (IZR z - v) (v - IZR n)) as T. replace (IZR z - v + (v - IZR n)) with (IZR z - IZR n) in T by ring. rewrite (Rabs_minus_sym v) in T. lra.
Qed.
Lemma scaled_spec N D k z : (0 < D)%Z -> Rabs (IZR (scaled N D k) - IZR N / IZR D * bpow ten k) <= Rabs (IZR z - IZR N / IZR D * bpow ten k) /\
  Rabs (IZR (scaled N D k) - IZR N / IZR D * bpow ten k) <= / 2.
Proof.
  intros D0. assert (HD : 0 < IZR D) by (apply IZR_lt; lia). unfold scaled. destruct (Z.leb_spec 0 k) as [H|H].
  - replace (IZR N / IZR D * bpow ten k) with (IZR (N * 10 ^ k) / IZR D) by (rewrite mult_IZR, (p10 k H); field; lra). apply nearest_spec. exact D0.
  - assert (P : bpow ten k * bpow ten (- k) = 1) by (rewrite <- bpow_plus, Z.add_opp_diag_r; reflexivity). pose proof (bpow_gt_0 ten (- k)) as B.
    replace (IZR N / IZR D * bpow ten k) with (IZR N / IZR (D * 10 ^ (- k))).
    + apply nearest_spec. apply Z.mul_pos_pos; [exact D0|]. apply Z.pow_pos_nonneg; lia.
    + rewrite mult_IZR, (p10 (- k)) by lia. apply (Rmult_eq_reg_r (bpow ten (- k))); [|lra]. rewrite (Rmult_assoc _ (bpow ten k)), P. field. lra.
Qed.
(** Values of doubles. *)
Lemma start_high N D : (0 < N)%Z -> (0 < D)%Z -> IZR N / IZR D < bpow ten (Z.max 0 (Z.log2 N + 1 - Z.log2 D) / 3 + 1).
Proof.
  intros N0 D0. assert (HD : 0 < IZR D) by (apply IZR_lt; lia). destruct (Z.log2_spec N N0) as (_ & A). destruct (Z.log2_spec D D0) as (B & _).
  set (n := Z.log2 N) in *. set (d := Z.log2 D) in *. assert (n0 : (0 <= n)%Z) by apply Z.log2_nonneg. assert (d0 : (0 <= d)%Z) by apply Z.log2_nonneg.
  set (a := Z.max 0 (n + 1 - d)). set (k := (a / 3)%Z). assert (K : (0 <= k /\ a <= 3 * k + 2)%Z) by (unfold k; pose proof (Z.div_mod a 3); pose proof (Z.mod_pos_bound a 3); split; [apply Z.div_pos; lia|lia]).
  assert (P : (2 ^ a < 10 ^ (k + 1))%Z).
  { apply Z.le_lt_trans with (2 ^ (3 * k + 2))%Z; [apply Z.pow_le_mono_r; lia|]. rewrite Z.pow_add_r, Z.pow_mul_r, Z.pow_add_r by lia. change (2 ^ 3)%Z with 8%Z. change (2 ^ 2)%Z with 4%Z. change (10 ^ 1)%Z with 10%Z.
    assert (8 ^ k <= 10 ^ k)%Z by (apply Z.pow_le_mono_l; lia). assert (0 < 8 ^ k)%Z by (apply Z.pow_pos_nonneg; lia). lia. }
  assert (Q : (N < 10 ^ (k + 1) * D)%Z).
  { apply Z.lt_le_trans with (2 ^ a * 2 ^ d)%Z.
    - rewrite <- Z.pow_add_r by lia. apply Z.lt_le_trans with (2 ^ Z.succ n)%Z; [exact A|]. apply Z.pow_le_mono_r; lia.
    - apply Z.mul_le_mono_nonneg; try lia; apply Z.pow_nonneg; lia. }
  apply (Rmult_lt_reg_r (IZR D)); [exact HD|]. replace (IZR N / IZR D * IZR D) with (IZR N) by (field; lra). rewrite <- (p10 (k + 1)) by lia. rewrite <- mult_IZR. apply IZR_lt. exact Q.
Qed.
Lemma start_low N D : (0 < N)%Z -> (0 < D)%Z -> bpow radix2 (-1074) <= IZR N / IZR D < bpow radix2 1024 ->
  bpow ten (Z.max 0 (Z.log2 N + 1 - Z.log2 D) / 3 - Z.of_nat 700) <= IZR N / IZR D.
Proof.
  intros N0 D0 (L & U). assert (HD : 0 < IZR D) by (apply IZR_lt; lia). apply Rle_trans with (bpow radix2 (-1074)); [|exact L].
  assert (S : (Z.log2 N < 1025 + Z.log2 D)%Z).
  { apply Z.log2_lt_pow2; [exact N0|]. pose proof (Z.log2_nonneg D). apply lt_IZR. apply Rlt_le_trans with (bpow radix2 1024 * IZR D).
    - apply (Rmult_lt_compat_r (IZR D)) in U; [|exact HD]. replace (IZR N / IZR D * IZR D) with (IZR N) in U by (field; lra). exact U.
    - rewrite <- (IZR_Zpower radix2) by discriminate. rewrite <- mult_IZR. apply IZR_le. destruct (Z.log2_spec D D0) as (_ & B). replace (1025 + Z.log2 D)%Z with (1024 + Z.succ (Z.log2 D))%Z by lia.
      rewrite Z.pow_add_r by lia. apply Z.mul_le_mono_nonneg_l; [apply Z.pow_nonneg; lia|]. change (radix_val radix2) with 2%Z. lia. }
  apply Rle_trans with (bpow ten (-358)).
  - apply bpow_le. assert (Z.max 0 (Z.log2 N + 1 - Z.log2 D) / 3 <= 1025 / 3)%Z by (apply Z.div_le_mono; lia). change (1025 / 3)%Z with 341%Z in *. lia.
  - change (-358)%Z with (- (358))%Z. change (-1074)%Z with (- (1074))%Z. rewrite !bpow_opp. apply Rinv_le; [apply bpow_gt_0|]. rewrite <- (IZR_Zpower radix2), <- (IZR_Zpower ten) by discriminate. apply IZR_le.
    change (Zpower ten 358) with (10 ^ 358)%Z. change (Zpower radix2 1074) with (2 ^ (3 * 358))%Z. rewrite Z.pow_mul_r by lia. apply Z.pow_le_mono_l. lia.
Qed.
Lemma significant_spec P N D d X : (1 <= P)%Z -> (0 < N)%Z -> (0 < D)%Z -> bpow radix2 (-1074) <= IZR N / IZR D < bpow radix2 1024 -> significant P N D = (d, X) ->
  (10 ^ (P - 1) <= d < 10 ^ P)%Z /\ (bpow ten X <= IZR N / IZR D < bpow ten (X + 1) /\ d = scaled N D (P - 1 - X) \/ IZR N / IZR D < bpow ten X /\ d = (10 ^ (P - 1))%Z) /\
  (forall q k, (Z.abs q < 10 ^ P)%Z -> Rabs (IZR d * bpow ten (X + 1 - P) - IZR N / IZR D) <= Rabs (IZR q * bpow ten k - IZR N / IZR D)) /\
  Rabs (IZR d * bpow ten (X + 1 - P) - IZR N / IZR D) <= / 2 * bpow ten (1 - P) * (IZR N / IZR D).
Proof.
  intros HP N0 D0 B. unfold significant. set (E := exponent 700 N D _).
  pose proof (exponent_spec N D D0 700 _ (start_high N D N0 D0) (start_low N D N0 D0 B)) as (E1 & E2). fold E in E1, E2.
  set (v := IZR N / IZR D) in *. set (d0 := scaled N D (P - 1 - E)). set (u := bpow ten (E + 1 - P)). assert (U : 0 < u) by apply bpow_gt_0.
  assert (W : forall z, Rabs (IZR d0 * u - v) <= Rabs (IZR z * u - v) /\ Rabs (IZR d0 * u - v) <= / 2 * u).
  { intros z. destruct (scaled_spec N D (P - 1 - E) z D0) as (A1 & A2). fold v d0 in A1, A2. assert (V : v = v * bpow ten (P - 1 - E) * u).
    { unfold u. rewrite Rmult_assoc, <- bpow_plus. replace (P - 1 - E + (E + 1 - P))%Z with 0%Z by lia. cbn. ring. }
    assert (K : forall t, Rabs (t * u - v) = Rabs (t - v * bpow ten (P - 1 - E)) * u).
    { intros t. rewrite <- (Rabs_pos_eq u) at 2 by lra. rewrite <- Rabs_mult. f_equal. rewrite Rmult_minus_distr_r, <- V. reflexivity. }
    rewrite !K. split; [apply Rmult_le_compat_r; lra|]. apply Rmult_le_compat_r; lra. }
  assert (P1 : IZR (10 ^ (P - 1)) * u = bpow ten E) by (rewrite (p10 (P - 1)) by lia; unfold u; rewrite <- bpow_plus; f_equal; lia).
  assert (P2 : IZR (10 ^ P) * u = bpow ten (E + 1)) by (rewrite (p10 P) by lia; unfold u; rewrite <- bpow_plus; f_equal; lia).
  assert (L1 : (10 ^ (P - 1) <= d0)%Z).
  { destruct (Z.le_gt_cases (10 ^ (P - 1)) d0) as [H|H]; [exact H|]. exfalso. destruct (W (10 ^ (P - 1))%Z) as (A & _). rewrite P1 in A.
    assert (IZR d0 * u < bpow ten E) by (rewrite <- P1; apply Rmult_lt_compat_r; [exact U|apply IZR_lt; exact H]). rewrite (Rabs_left1 (_ - _)), (Rabs_left1 (bpow _ _ - _)) in A by lra. lra. }
  assert (L2 : (d0 <= 10 ^ P)%Z).
  { destruct (Z.le_gt_cases d0 (10 ^ P)) as [H|H]; [exact H|]. exfalso. destruct (W (10 ^ P)%Z) as (A & _). rewrite P2 in A.
    assert (bpow ten (E + 1) < IZR d0 * u) by (rewrite <- P2; apply Rmult_lt_compat_r; [exact U|apply IZR_lt; exact H]). rewrite (Rabs_pos_eq (_ - _)), (Rabs_pos_eq (bpow _ _ - _)) in A by lra. lra. }
  assert (BB : forall q k, (Z.abs q < 10 ^ P)%Z -> Rabs (IZR d0 * u - v) <= Rabs (IZR q * bpow ten k - v)).
  { intros q k Q. destruct (Z.le_gt_cases (E + 1 - P) k) as [H|H].
    - replace (IZR q * bpow ten k) with (IZR (q * 10 ^ (k - (E + 1 - P))) * u); [apply W|]. rewrite mult_IZR, (p10 (k - (E + 1 - P))) by lia. unfold u. rewrite Rmult_assoc, <- bpow_plus. do 2 f_equal. lia.
    - apply Rle_trans with (Rabs (bpow ten E - v)); [rewrite <- P1; apply W|]. assert (IZR q * bpow ten k <= bpow ten E).
      { apply Rle_trans with (bpow ten P * bpow ten k); [|rewrite <- bpow_plus; apply bpow_le; lia]. apply Rmult_le_compat_r; [apply bpow_ge_0|]. rewrite <- (p10 P) by lia. apply IZR_le. lia. }
      rewrite !Rabs_left1 by lra. lra. }
  assert (AA : Rabs (IZR d0 * u - v) <= / 2 * bpow ten (1 - P) * v).
  { apply Rle_trans with (/ 2 * u); [apply (W 0%Z)|]. rewrite Rmult_assoc. apply Rmult_le_compat_l; [lra|]. unfold u. replace (E + 1 - P)%Z with (1 - P + E)%Z by lia. rewrite bpow_plus. apply Rmult_le_compat_l; [apply bpow_ge_0|exact E1]. }
  assert (PP : (10 * 10 ^ (P - 1) = 10 ^ P)%Z) by (rewrite <- Z.pow_succ_r by lia; f_equal; lia).
  assert (P0 : (0 < 10 ^ (P - 1))%Z) by (apply Z.pow_pos_nonneg; lia).
  destruct (Z.eqb_spec d0 (10 ^ P)) as [EQ|NE]; intros [= <- <-].
  - assert (S : IZR (10 ^ (P - 1)) * bpow ten (E + 1 + 1 - P) = IZR d0 * u).
    { rewrite EQ, P2, (p10 (P - 1)) by lia. rewrite <- bpow_plus. f_equal. lia. }
    split; [lia|]. split; [right; split; [exact E2|reflexivity]|]. rewrite S. split; assumption.
  - split; [lia|]. split; [left; split; [split; assumption|reflexivity]|]. split; assumption.
Qed.
