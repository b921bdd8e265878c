(** C158: CloseEnough and Interpolate with the rounding of doubles. *)
From Verif Require Import Base VoxelFloat DynGridFloat ChunkFloat InterpFloatModel.
From Flocq Require Import IEEE754.Bits IEEE754.Binary Core Relative Plus_error.
From Coq Require Import Reals Lra Psatz.
Local Instance P53 : Prec_gt_0 53 := eq_refl.
Local Instance VE : Valid_exp (SpecFloat.fexp 53 1024) := BinarySingleNaN.fexp_correct 53 1024 eq_refl.
Open Scope R_scope.

(** ** Specification *)
(** The ratio limited to 0 to 1. *)
Definition clamped (r : R) : R := Rmax 0 (Rmin 1 r).
(** 2 to the power of k. *)
Notation two_to k := (bpow radix2 k).

(** ** Rounding *)
Lemma rnd_err x : Rabs (rndN x - x) <= b (-53) * Rabs x + b (-1075).
Proof.
  destruct (error_N_FLT radix2 (-1074) 53 eq_refl (fun x => negb (Z.even x)) x) as (e & h & A & H & _ & E). change (rndN x) with (round radix2 (FLT_exp (-1074) 53) (Znearest (fun x => negb (Z.even x))) x). rewrite E.
  replace (x * (1 + e) + h - x) with (e * x + h) by ring. eapply Rle_trans; [apply Rabs_triang|]. rewrite Rabs_mult. apply Rplus_le_compat.
  - apply Rmult_le_compat_r; [apply Rabs_pos|]. eapply Rle_trans; [exact A|]. unfold u_ro. rewrite (b_opaque (-53)). change (bpow radix2 (-53)) with (bpow radix2 (-1 + (-53 + 1))). rewrite (bpow_plus radix2 (-1)). right. reflexivity.
  - eapply Rle_trans; [exact H|]. rewrite (b_opaque (-1075)). change (bpow radix2 (-1075)) with (bpow radix2 (-1 + -1074)). rewrite (bpow_plus radix2 (-1)). right. reflexivity.
Qed.
Lemma rnd_mono x y : x <= y -> rndN x <= rndN y. Proof. apply round_le; typeclasses eauto. Qed.
Lemma rnd_same x : generic_format radix2 (SpecFloat.fexp 53 1024) x -> rndN x = x. Proof. apply round_generic; typeclasses eauto. Qed.
Lemma rnd_bound x p : (-1000 <= p <= 1023)%Z -> Rabs x <= b p -> Rabs (rndN x) <= b p.
Proof.
  intros P X. assert (G : rndN (b p) = b p). { apply rnd_same. rewrite (b_opaque p). apply generic_format_bpow. unfold SpecFloat.fexp, SpecFloat.emin. lia. }
  apply Rabs_le. assert (Q : - b p <= x <= b p) by (apply two_sided; exact X). split; [|rewrite <- G; apply rnd_mono; apply Q].
  rewrite <- G, <- round_NE_opp. apply rnd_mono. apply Q.
Qed.
Lemma b_1024 p : (p <= 1023)%Z -> b p < b 1024. Proof. intros P. apply b_lt. lia. Qed.
Lemma mult_val x y p : fin x = true -> fin y = true -> (-1000 <= p <= 1023)%Z -> Rabs (B x * B y) <= b p -> fin (b64_mult NE x y) = true /\ B (b64_mult NE x y) = rndN (B x * B y).
Proof.
  intros FX FY P U. pose proof (Bmult_correct 53 1024 eq_refl eq_refl binop_nan_pl64 NE x y) as H. change (BinarySingleNaN.round_mode NE) with ZnearestE in H. change (bpow radix2 1024) with (b 1024) in H.
  rewrite Rlt_bool_true in H by (eapply Rle_lt_trans; [apply (rnd_bound _ p P U)|apply b_1024; lia]). destruct H as (H1 & H2 & _). rewrite FX, FY in H2. split; [exact H2|exact H1].
Qed.
Lemma plus_val x y p : fin x = true -> fin y = true -> (-1000 <= p <= 1023)%Z -> Rabs (B x + B y) <= b p -> fin (b64_plus NE x y) = true /\ B (b64_plus NE x y) = rndN (B x + B y).
Proof.
  intros FX FY P U. pose proof (Bplus_correct 53 1024 eq_refl eq_refl binop_nan_pl64 NE x y FX FY) as H. change (BinarySingleNaN.round_mode NE) with ZnearestE in H. change (bpow radix2 1024) with (b 1024) in H.
  rewrite Rlt_bool_true in H by (eapply Rle_lt_trans; [apply (rnd_bound _ p P U)|apply b_1024; lia]). destruct H as (H1 & H2 & _). split; [exact H2|exact H1].
Qed.
Lemma minus_val x y p : fin x = true -> fin y = true -> (-1000 <= p <= 1023)%Z -> Rabs (B x - B y) <= b p -> fin (b64_minus NE x y) = true /\ B (b64_minus NE x y) = rndN (B x - B y).
Proof.
  intros FX FY P U. pose proof (Bminus_correct 53 1024 eq_refl eq_refl binop_nan_pl64 NE x y FX FY) as H. change (BinarySingleNaN.round_mode NE) with ZnearestE in H. change (bpow radix2 1024) with (b 1024) in H.
  rewrite Rlt_bool_true in H by (eapply Rle_lt_trans; [apply (rnd_bound _ p P U)|apply b_1024; lia]). destruct H as (H1 & H2 & _). split; [exact H2|exact H1].
Qed.
Lemma one_val : fin f_one = true /\ B f_one = 1. Proof. apply of_Z_exact. lia. Qed.
Lemma zero_val : fin f_0 = true /\ B f_0 = 0. Proof. apply of_Z_exact. lia. Qed.
Lemma lt_spec x y : fin x = true -> fin y = true -> (f_lt x y = true <-> B x < B y).
Proof. intros FX FY. unfold f_lt, b64_compare. rewrite Bcompare_correct by auto. destruct (Rcompare_spec (B x) (B y)); split; intros; auto; try discriminate; lra. Qed.
Lemma unit_val r : fin r = true -> fin (f_unit r) = true /\ B (f_unit r) = clamped (B r).
Proof.
  intros F. destruct zero_val as (Z1 & Z2). destruct one_val as (O1 & O2). unfold f_unit, clamped.
  destruct (f_lt r f_0) eqn:L.
  - apply lt_spec in L; auto. split; [exact Z1|]. rewrite Z2 in *. unfold Rmax, Rmin. repeat destruct (Rle_dec _ _); lra.
  - assert (NL : ~ B r < 0) by (rewrite <- Z2; intros Q; apply lt_spec in Q; auto; congruence). destruct (f_lt f_one r) eqn:U.
    + apply lt_spec in U; auto. split; [exact O1|]. rewrite O2 in *. unfold Rmax, Rmin. repeat destruct (Rle_dec _ _); lra.
    + assert (NU : ~ 1 < B r) by (rewrite <- O2; intros Q; apply lt_spec in Q; auto; congruence). split; [exact F|]. unfold Rmax, Rmin. repeat destruct (Rle_dec _ _); lra.
Qed.
Lemma clamped_range r : 0 <= clamped r <= 1. Proof. unfold clamped, Rmax, Rmin. repeat destruct (Rle_dec _ _); lra. Qed.
Lemma b_1023 : b 1023 = 2 * b 1022. Proof. change 1023%Z with (1 + 1022)%Z. rewrite b_add. f_equal. Qed.
Definition inR (x y c : R) : R := rndN (rndN (x * rndN (1 - c)) + rndN (y * c)).
Lemma share x c p : 0 <= c <= 1 -> Rabs x <= b p -> Rabs (x * c) <= b p.
Proof. intros C X. rewrite Rabs_mult, (Rabs_right c) by lra. pose proof (Rabs_pos x). pose proof (b_pos p). nra. Qed.
Lemma rest_range c : 0 <= c <= 1 -> 0 <= rndN (1 - c) <= 1.
Proof.
  intros C. split.
  - rewrite <- (round_0 radix2 (SpecFloat.fexp 53 1024) ZnearestE). apply rnd_mono. lra.
  - assert (G : rndN 1 = 1) by (apply rnd_same; change 1 with (bpow radix2 0); apply generic_format_bpow; unfold SpecFloat.fexp, SpecFloat.emin; lia). rewrite <- G at 2. apply rnd_mono. lra.
Qed.
Lemma interpolate_val x y r : fin x = true -> fin y = true -> fin r = true -> Rabs (B x) <= b 1022 -> Rabs (B y) <= b 1022 ->
  fin (f_interpolate x y r) = true /\ B (f_interpolate x y r) = inR (B x) (B y) (clamped (B r)).
Proof.
  intros FX FY FR X Y. destruct (unit_val r FR) as (FU & EU). destruct one_val as (O1 & O2). unfold f_interpolate, inR. cbv zeta. set (u := f_unit r) in *. pose proof (clamped_range (B r)) as C. set (c := clamped (B r)) in *.
  destruct (minus_val f_one u 0 O1 FU ltac:(lia)) as (F1 & E1). { rewrite O2, EU, b_0. apply Rabs_le. lra. } rewrite O2, EU in E1.
  pose proof (rest_range c C) as RR. destruct (mult_val x (b64_minus NE f_one u) 1022 FX F1 ltac:(lia)) as (F2 & E2). { rewrite E1. apply share; assumption. } rewrite E1 in E2.
  destruct (mult_val y u 1022 FY FU ltac:(lia)) as (F3 & E3). { rewrite EU. apply share; assumption. } rewrite EU in E3.
  destruct (plus_val (b64_mult NE x (b64_minus NE f_one u)) (b64_mult NE y u) 1023 F2 F3 ltac:(lia)) as (F4 & E4).
  { rewrite E2, E3, b_1023. eapply Rle_trans; [apply Rabs_triang|]. pose proof (rnd_bound _ 1022 ltac:(lia) (share (B x) _ 1022 RR X)). pose proof (rnd_bound _ 1022 ltac:(lia) (share (B y) _ 1022 C Y)). lra. }
  split; [exact F4|]. rewrite E4, E2, E3. reflexivity.
Qed.

(** ** Interpolate *)
Lemma inR_error x y c M : 0 <= c <= 1 -> Rabs x <= M -> Rabs y <= M -> Rabs (inR x y c - (x + c * (y - x))) <= two_to (-51) * M + two_to (-1073).
Proof.
  intros C X Y. unfold inR. pose proof (rest_range c C) as RR. set (d := rndN (1 - c)) in *.
  set (u := b (-53)). set (h := b (-1075)).
  replace (two_to (-51)) with (4 * u). 2:{ unfold u. change (two_to (-51)) with (two_to (2 + -53)). rewrite (bpow_plus radix2 2). rewrite (b_opaque (-53)). f_equal. }
  replace (two_to (-1073)) with (4 * h). 2:{ unfold h. change (two_to (-1073)) with (two_to (2 + -1075)). rewrite (bpow_plus radix2 2). rewrite (b_opaque (-1075)). f_equal. }
  assert (u0 : 0 < u) by apply b_pos. assert (h0 : 0 < h) by apply b_pos. assert (M0 : 0 <= M) by (pose proof (Rabs_pos x); lra).
  assert (u1 : u <= / 1024). { unfold u. replace (/ 1024) with (b (-10)) by (rewrite (b_opaque (-10)); reflexivity). apply b_le. lia. }
  assert (hu : h <= u * u). { unfold h, u. rewrite <- b_add. apply b_le. lia. }
  assert (D : Rabs (d - (1 - c)) <= u * (1 - c) + h). { pose proof (rnd_err (1 - c)) as E. rewrite (Rabs_right (1 - c)) in E by lra. exact E. }
  pose proof (rnd_err (x * d)) as EA. fold u h in EA. set (A := rndN (x * d)) in *. pose proof (rnd_err (y * c)) as EB. fold u h in EB. set (Q := rndN (y * c)) in *. pose proof (rnd_err (A + Q)) as ES. fold u h in ES. set (S := rndN (A + Q)) in *.
  clearbody A Q S d u h. assert (XD : Rabs (x * d) <= M * d) by (rewrite Rabs_mult, (Rabs_right d) by lra; apply Rmult_le_compat_r; lra). assert (YC : Rabs (y * c) <= M * c) by (rewrite Rabs_mult, (Rabs_right c) by lra; apply Rmult_le_compat_r; lra).
  assert (DC : d + c <= 1 + 2 * u) by (apply two_sided in D; nra).
  assert (EA' : Rabs (A - x * d) <= u * (M * d) + h) by (eapply Rle_trans; [exact EA|]; apply Rplus_le_compat_r, Rmult_le_compat_l; lra).
  assert (EB' : Rabs (Q - y * c) <= u * (M * c) + h) by (eapply Rle_trans; [exact EB|]; apply Rplus_le_compat_r, Rmult_le_compat_l; lra).
  assert (EX : Rabs (x * d - x * (1 - c)) <= M * (u + h)).
  { replace (x * d - x * (1 - c)) with (x * (d - (1 - c))) by ring. rewrite Rabs_mult. apply Rmult_le_compat; try apply Rabs_pos; try assumption. nra. }
  assert (SM : Rabs (A + Q) <= M * (d + c) * (1 + u) + 2 * h).
  { replace (A + Q) with ((A - x * d) + (x * d) + ((Q - y * c) + y * c)) by ring. eapply Rle_trans; [apply Rabs_triang|]. pose proof (Rabs_triang (A - x * d) (x * d)). pose proof (Rabs_triang (Q - y * c) (y * c)). nra. }
  assert (ES' : Rabs (S - (A + Q)) <= u * (M * (d + c) * (1 + u) + 2 * h) + h) by (eapply Rle_trans; [exact ES|]; apply Rplus_le_compat_r, Rmult_le_compat_l; lra).
  replace (S - (x + c * (y - x))) with ((S - (A + Q)) + ((A - x * d) + (x * d - x * (1 - c)) + (Q - y * c))) by ring.
  pose proof (Rabs_triang (S - (A + Q)) ((A - x * d) + (x * d - x * (1 - c)) + (Q - y * c))) as T1. pose proof (Rabs_triang ((A - x * d) + (x * d - x * (1 - c))) (Q - y * c)) as T2. pose proof (Rabs_triang (A - x * d) (x * d - x * (1 - c))) as T3.
  assert (MD : M * (d + c) <= M * (1 + 2 * u)) by (apply Rmult_le_compat_l; lra). assert (uh : u * h <= / 1024 * h) by (apply Rmult_le_compat_r; lra).
  assert (K : u * (M * (d + c) * (1 + u)) <= u * (M * (1 + 2 * u) * (1 + u))) by (apply Rmult_le_compat_l; [lra|]; apply Rmult_le_compat_r; lra).
  assert (K2 : u * (M * d) + u * (M * c) <= u * (M * (1 + 2 * u))) by (replace (u * (M * d) + u * (M * c)) with (u * (M * (d + c))) by ring; apply Rmult_le_compat_l; lra).
  assert (K3 : u * (M * (1 + 2 * u) * (1 + u)) + u * (M * (1 + 2 * u)) + M * (u + h) <= 4 * u * M).
  { replace (4 * u * M) with (M * (4 * u)) by ring. replace (u * (M * (1 + 2 * u) * (1 + u)) + u * (M * (1 + 2 * u)) + M * (u + h)) with (M * (u * ((1 + 2 * u) * (1 + u)) + u * (1 + 2 * u) + (u + h))) by ring. apply Rmult_le_compat_l; [exact M0|]. assert (uu : u * u <= u * / 1024) by (apply Rmult_le_compat_l; lra). assert (uuu : u * u * u <= u * u * / 1024) by (apply Rmult_le_compat_l; [apply Rmult_le_pos; lra|lra]). assert (0 <= u * u) by (apply Rmult_le_pos; lra). lra. }
  lra.
Qed.
(** Interpolate of doubles up to 2^1022 is finite and off by at most 2^-51 of the larger one. *)
Theorem C158_rounding : forall x y r, fin x = true -> fin y = true -> fin r = true -> Rabs (B x) <= two_to 1022 -> Rabs (B y) <= two_to 1022 ->
  fin (f_interpolate x y r) = true /\
  Rabs (B (f_interpolate x y r) - (B x + clamped (B r) * (B y - B x))) <= two_to (-51) * Rmax (Rabs (B x)) (Rabs (B y)) + two_to (-1073).
Proof.
  intros x y r FX FY FR X Y. rewrite <- (b_opaque 1022) in X, Y. destruct (interpolate_val x y r FX FY FR X Y) as (F & E). split; [exact F|]. rewrite E. apply inR_error; [apply clamped_range|apply Rmax_l|apply Rmax_r].
Qed.
Print Assumptions C158_rounding.
(** It is exact at the ends. *)
Lemma inR_0 x y : generic_format radix2 (SpecFloat.fexp 53 1024) x -> inR x y 0 = x.
Proof.
  intros G. unfold inR. assert (G1 : rndN 1 = 1) by (apply rnd_same; change 1 with (bpow radix2 0); apply generic_format_bpow; unfold SpecFloat.fexp, SpecFloat.emin; lia).
  rewrite Rminus_0_r, G1, Rmult_1_r, Rmult_0_r. rewrite (rnd_same x G), round_0 by typeclasses eauto. rewrite Rplus_0_r. apply rnd_same. exact G.
Qed.
Lemma inR_1 x y : generic_format radix2 (SpecFloat.fexp 53 1024) y -> inR x y 1 = y.
Proof.
  intros G. unfold inR. replace (1 - 1) with 0 by ring. rewrite (round_0 radix2 (SpecFloat.fexp 53 1024) ZnearestE), Rmult_0_r, round_0 by typeclasses eauto. rewrite Rplus_0_l, Rmult_1_r, !(rnd_same y G). reflexivity.
Qed.
Theorem C158_ends : forall x y r, fin x = true -> fin y = true -> fin r = true -> Rabs (B x) <= two_to 1022 -> Rabs (B y) <= two_to 1022 ->
  (B r <= 0 -> B (f_interpolate x y r) = B x) /\ (1 <= B r -> B (f_interpolate x y r) = B y).
Proof.
  intros x y r FX FY FR X Y. rewrite <- (b_opaque 1022) in X, Y. destruct (interpolate_val x y r FX FY FR X Y) as (_ & E). rewrite E. split; intros R.
  - replace (clamped (B r)) with 0 by (unfold clamped, Rmax, Rmin; repeat destruct (Rle_dec _ _); lra). apply inR_0, generic_format_B2R.
  - replace (clamped (B r)) with 1 by (unfold clamped, Rmax, Rmin; repeat destruct (Rle_dec _ _); lra). apply inR_1, generic_format_B2R.
Qed.
Print Assumptions C158_ends.
(** Larger ends give no smaller value. *)
Theorem C158_ordered : forall x y x' y' r, fin x = true -> fin y = true -> fin x' = true -> fin y' = true -> fin r = true ->
  Rabs (B x) <= two_to 1022 -> Rabs (B y) <= two_to 1022 -> Rabs (B x') <= two_to 1022 -> Rabs (B y') <= two_to 1022 ->
  B x <= B x' -> B y <= B y' -> B (f_interpolate x y r) <= B (f_interpolate x' y' r).
Proof.
  intros x y x' y' r FX FY FX' FY' FR X Y X' Y' LX LY. rewrite <- (b_opaque 1022) in X, Y, X', Y'. rewrite (proj2 (interpolate_val x y r FX FY FR X Y)), (proj2 (interpolate_val x' y' r FX' FY' FR X' Y')).
  pose proof (clamped_range (B r)) as C. pose proof (rest_range _ C) as RR. unfold inR. apply rnd_mono. apply Rplus_le_compat; apply rnd_mono; apply Rmult_le_compat_r; lra.
Qed.
Print Assumptions C158_ordered.
(** Vectors: coefficient by coefficient. *)
Theorem C158_vectors_rounded : forall v w r, (length v <> length w -> f_interpolate_vec v w r = []) /\ (length v = length w -> length (f_interpolate_vec v w r) = length v /\
  forall i x y, nth_error v i = Some x -> nth_error w i = Some y -> nth_error (f_interpolate_vec v w r) i = Some (f_interpolate x y r)).
Proof.
  intros v w r. unfold f_interpolate_vec. cbv zeta. split.
  - intros N. apply Nat.eqb_neq in N. rewrite N. reflexivity.
  - intros L. rewrite (proj2 (Nat.eqb_eq _ _) L), map_length, combine_length, <- L, Nat.min_id. split; [reflexivity|]. clear L. revert w. induction v as [|a v IH]; intros [|c w] [|i] x y X Y; try discriminate; cbn [combine map nth_error] in *; [|exact (IH w i x y X Y)].
    injection X as <-. injection Y as <-. reflexivity.
Qed.
Print Assumptions C158_vectors_rounded.

(** ** CloseEnough *)
Lemma abs_val x : fin (f_abs x) = fin x /\ B (f_abs x) = Rabs (B x).
Proof. destruct x as [s|s|s pl H|s m e H]; split; try reflexivity; cbn [f_abs B2R]; try (rewrite Rabs_R0; reflexivity). rewrite <- F2R_Zabs. rewrite abs_cond_Zopp. reflexivity. Qed.
Lemma le_spec x y : fin x = true -> fin y = true -> (f_le x y = true <-> B x <= B y).
Proof. intros FX FY. unfold f_le, b64_compare. rewrite Bcompare_correct by auto. destruct (Rcompare_spec (B x) (B y)); split; intros; auto; try discriminate; lra. Qed.
(** True for doubles at most the threshold apart, false for doubles more than a double above the threshold apart. *)
Theorem C158_close_rounded : forall x y t, fin x = true -> fin y = true -> fin t = true -> Rabs (B x) <= two_to 1022 -> Rabs (B y) <= two_to 1022 ->
  (Rabs (B y - B x) <= Rabs (B t) -> f_close x y t = true) /\
  (f_close x y t = true -> Rabs (B y - B x) <= Rabs (B t) * (1 + two_to (-52))) /\ f_close x y t = f_close y x t.
Proof.
  intros x y t FX FY FT X Y. rewrite <- (b_opaque 1022) in X, Y. assert (XY : Rabs (B y - B x) <= b 1023) by (rewrite b_1023; unfold Rminus; eapply Rle_trans; [apply Rabs_triang|]; rewrite Rabs_Ropp; lra).
  destruct (minus_val y x 1023 FY FX ltac:(lia) XY) as (F & E). unfold f_close. destruct (abs_val (b64_minus NE y x)) as (FA & EA). destruct (abs_val t) as (FB & EB). rewrite F in FA. rewrite FT in FB. pose proof (le_spec _ _ FA FB) as L. rewrite EA, EB, E in L.
  split; [|split].
  - intros H. apply L. rewrite <- (rnd_same (Rabs (B t))) by (apply generic_format_abs, generic_format_B2R). rewrite <- round_NE_abs by typeclasses eauto. apply rnd_mono. exact H.
  - intros H. apply L in H. destruct (sum_rel (B y) (- B x)) as (e & A & Q); [apply generic_format_B2R|apply generic_format_opp, generic_format_B2R|]. change (B y + - B x) with (B y - B x) in Q. rewrite Q, Rabs_mult in H.
    assert (P : two_to (-52) = 2 * b (-53)). { change (two_to (-52)) with (two_to (1 + -53)). rewrite (bpow_plus radix2 1), (b_opaque (-53)). f_equal. } rewrite P. set (u := b (-53)) in *. assert (u0 : 0 < u) by apply b_pos.
    assert (u1 : u <= / 1024). { unfold u. replace (/ 1024) with (b (-10)) by (rewrite (b_opaque (-10)); reflexivity). apply b_le. lia. }
    apply two_sided in A. rewrite (Rabs_right (1 + e)) in H by lra. pose proof (Rabs_pos (B y - B x)). assert (HH : Rabs (B y - B x) * (1 - u) <= Rabs (B t)) by nra. apply Rle_trans with (Rabs (B y - B x) * (1 - u) * (1 + 2 * u)); [|apply Rmult_le_compat_r; lra]. rewrite Rmult_assoc. rewrite <- (Rmult_1_r (Rabs (B y - B x))) at 1. apply Rmult_le_compat_l; [assumption|]. assert (u * u <= u * / 1024) by (apply Rmult_le_compat_l; lra). lra.
  - assert (YX : Rabs (B x - B y) <= b 1023) by (rewrite Rabs_minus_sym; exact XY). destruct (minus_val x y 1023 FX FY ltac:(lia) YX) as (F' & E'). destruct (abs_val (b64_minus NE x y)) as (FA' & EA'). rewrite F' in FA'. pose proof (le_spec _ _ FA' FB) as L'. rewrite EA', EB, E' in L'.
    replace (B x - B y) with (- (B y - B x)) in L' by ring. rewrite round_NE_opp, Rabs_Ropp in L'. destruct (f_le (f_abs (b64_minus NE y x)) (f_abs t)), (f_le (f_abs (b64_minus NE x y)) (f_abs t)); try reflexivity; exfalso; intuition discriminate.
Qed.
Print Assumptions C158_close_rounded.

(** ** What does not hold *)
Definition bits (n : Z) : fl := b64_of_bits n.
Definition larger (x y : fl) : bool := match Bcompare 53 1024 x y with Some Gt => true | _ => false end.
Lemma larger_spec x y : fin x = true -> fin y = true -> larger x y = true -> B y < B x.
Proof. intros FX FY. unfold larger. rewrite Bcompare_correct by auto. destruct (Rcompare_spec (B x) (B y)); intros; try discriminate; lra. Qed.
(** 0.1 and 0.1 with the ratio 0.2 give more than 0.1. *)
Theorem C158_outside_refuted : exists x r, fin x = true /\ fin r = true /\ 0 < B r < 1 /\ fin (f_interpolate x x r) = true /\ B x < B (f_interpolate x x r).
Proof.
  exists (bits 4591870180066957722), (bits 4596373779694328218). split; [vm_compute; reflexivity|]. split; [vm_compute; reflexivity|]. split; [|split; [vm_compute; reflexivity|apply larger_spec; vm_compute; reflexivity]].
  destruct one_val as (O1 & O2). destruct zero_val as (Z1 & Z2). rewrite <- O2, <- Z2. split; apply larger_spec; vm_compute; reflexivity.
Qed.
Print Assumptions C158_outside_refuted.
(** From 0.1 to 0.7: a larger ratio gives a smaller value. *)
Theorem C158_increasing_refuted : exists x y r s, fin x = true /\ fin y = true /\ B x < B y /\ 0 < B r /\ B r < B s /\ B s < 1 /\ fin r = true /\ fin s = true /\ B (f_interpolate x y s) < B (f_interpolate x y r).
Proof.
  exists (bits 4591870180066957722), (bits 4604480259023595110), (bits 4606989629297446413), (bits 4606989629297446414). destruct one_val as (O1 & O2). destruct zero_val as (Z1 & Z2). rewrite <- O2, <- Z2.
  split; [vm_compute; reflexivity|]. split; [vm_compute; reflexivity|]. split; [apply larger_spec; vm_compute; reflexivity|]. split; [apply larger_spec; vm_compute; reflexivity|]. split; [apply larger_spec; vm_compute; reflexivity|]. split; [apply larger_spec; vm_compute; reflexivity|].
  split; [vm_compute; reflexivity|]. split; [vm_compute; reflexivity|]. apply larger_spec; vm_compute; reflexivity.
Qed.
Print Assumptions C158_increasing_refuted.
Definition nan : fl := bits 9221120237041090560.
Definition infinity : fl := bits 9218868437227405312.
(** A ratio that is NaN is not caught; infinity is not close to itself, and no interpolation from a number reaches it. *)
Theorem C158_special_refuted : is_nan 53 1024 (f_interpolate f_0 f_one nan) = true /\ f_close infinity infinity f_one = false /\ is_nan 53 1024 (f_interpolate f_one infinity f_0) = true.
Proof. vm_compute. auto. Qed.
Print Assumptions C158_special_refuted.
Example C158_rounding_case : (bits_of_b64 (f_interpolate (f_of_Z 2) (f_of_Z 6) f_half) =? bits_of_b64 (f_of_Z 4))%Z = true /\ (bits_of_b64 (f_interpolate (f_of_Z 2) (f_of_Z 6) (f_of_Z 9)) =? bits_of_b64 (f_of_Z 6))%Z = true /\
  f_close (f_of_Z 2) (f_of_Z 6) (f_of_Z (-4)) = true /\ f_close (f_of_Z 2) (f_of_Z 6) (f_of_Z 3) = false.
Proof. vm_compute. auto. Qed.
