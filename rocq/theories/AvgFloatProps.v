(** C169: averages and standard deviations of doubles, with rounding. *)
From Verif Require Import Base VoxelFloat ChunkFloat DynGridFloat VecFloatModel VecFloatProps AvgFloatModel.
From Flocq Require Import IEEE754.Bits IEEE754.Binary Core Relative Plus_error.
From Coq Require Import Reals Lra Psatz.
Open Scope R_scope.
Local Instance P53a : Prec_gt_0 53 := eq_refl.
Local Instance VEa : Valid_exp (SpecFloat.fexp 53 1024) := BinarySingleNaN.fexp_correct 53 1024 eq_refl.
Notation fmt64 := (generic_format radix2 (SpecFloat.fexp 53 1024)).

Lemma fmt_b p : (-1074 <= p)%Z -> fmt64 (b p).
Proof. intros H. rewrite (b_opaque p). apply generic_format_bpow. unfold SpecFloat.fexp, SpecFloat.emin. lia. Qed.
Lemma fmt_B (x : fl) : fmt64 (B x). Proof. apply generic_format_B2R. Qed.
Lemma fmt_0 : fmt64 0. Proof. apply generic_format_0. Qed.
Lemma rnd_le x y : x <= y -> rndN x <= rndN y.
Proof. apply round_le; [apply VEa|apply valid_rnd_N]. Qed.
Lemma rnd_fmt x : fmt64 x -> rndN x = x.
Proof. apply round_generic, valid_rnd_N. Qed.
Lemma rnd_abs x y : fmt64 y -> Rabs x <= y -> Rabs (rndN x) <= y.
Proof. intros F L. apply abs_round_le_generic; [apply VEa|apply valid_rnd_N|exact F|exact L]. Qed.
(** A result of at most 2^1023 is a number, and the rounded value. *)
Lemma near_num f x p : nearest f x -> Rabs x <= b p -> (-1074 <= p <= 1023)%Z -> fin f = true /\ B f = rndN x /\ Rabs (B f) <= b p.
Proof.
  intros N L P. unfold nearest in N. cbv zeta in N. change (FLT_exp (-1074) 53) with (SpecFloat.fexp 53 1024) in N.
  assert (A : Rabs (rndN x) <= b p) by (apply rnd_abs; [apply fmt_b; lia|exact L]).
  rewrite Rlt_bool_true in N. { destruct N as (F & V). rewrite V. auto. }
  eapply Rle_lt_trans; [exact A|]. rewrite (b_opaque p). apply bpow_lt. lia.
Qed.
Lemma b_double p : b (p + 1) = 2 * b p.
Proof. rewrite b_add, (b_opaque 1). change (bpow radix2 1) with 2. ring. Qed.
Lemma small_exact x y : fmt64 x -> fmt64 y -> Rabs (x + y) <= b (-1021) -> fmt64 (x + y).
Proof. intros X Y L. apply (FLT_format_plus_small radix2 (-1074) 53); auto. Qed.
Lemma u_small : 0 < b (-53) <= / 64.
Proof. split; [apply b_pos|]. assert (Q : b (-6) = / 64) by (rewrite (b_opaque (-6)); reflexivity). rewrite <- Q. apply b_le. lia. Qed.

(** One round of the loop with a weight of at most one half. *)
Lemma step_between p c e : fin p = true -> fin c = true -> fin e = true -> Rabs (B p) <= b 1022 -> Rabs (B c) <= b 1022 -> 0 <= B e <= / 2 ->
  let r := b64_plus NE p (b64_mult NE e (b64_minus NE c p)) in fin r = true /\ (B p <= B r <= B c \/ B c <= B r <= B p).
Proof.
  intros FP FC FE LP LC (E0 & E1) r. set (D := B c - B p). pose proof u_small as (U0 & U1). set (u := b (-53)) in *.
  assert (LD : Rabs D <= b 1023) by (unfold D, Rminus; eapply Rle_trans; [apply Rabs_triang|]; rewrite Rabs_Ropp; change 1023%Z with (1022 + 1)%Z; rewrite b_double; lra).
  destruct (near_num _ _ 1023 (near_minus c p FC FP) LD ltac:(lia)) as (FD & VD & AD). fold D in VD. set (d := b64_minus NE c p) in *.
  assert (LT : Rabs (B e * B d) <= b 1023) by (rewrite Rabs_mult, (Rabs_pos_eq (B e)) by exact E0; pose proof (Rabs_pos (B d)); nra).
  destruct (near_num _ _ 1023 (near_mult e d FE FD) LT ltac:(lia)) as (FT & VT & _). set (t := b64_mult NE e d) in *.
  assert (AT : Rabs (B t) <= Rabs D).
  { destruct (Rle_lt_dec (Rabs D) (b (-1021))) as [S|S].
    - assert (FMT : fmt64 D) by (unfold D, Rminus in *; apply small_exact; auto using fmt_B, generic_format_opp).
      rewrite rnd_fmt in VD by exact FMT. rewrite VT, VD. apply rnd_abs; [apply generic_format_abs, FMT|].
      rewrite Rabs_mult, (Rabs_pos_eq (B e)) by exact E0. pose proof (Rabs_pos D). nra.
    - destruct (sum_rel (B c) (- B p)) as (x & X & EX); [apply fmt_B|apply generic_format_opp, fmt_B|]. fold D in EX. change (B c + - B p) with D in EX. rewrite <- VD in EX. fold u in X.
      assert (AE : Rabs (B e * B d) <= Rabs D * (1 + u) / 2).
      { rewrite EX, !Rabs_mult, (Rabs_pos_eq (B e)) by exact E0. assert (Rabs (1 + x) <= 1 + u) by (eapply Rle_trans; [apply Rabs_triang|]; rewrite Rabs_R1; lra).
        pose proof (Rabs_pos D). pose proof (Rabs_pos (1 + x)). assert (Rabs D * Rabs (1 + x) <= Rabs D * (1 + u)) by (apply Rmult_le_compat_l; lra).
        apply Rle_trans with (/ 2 * (Rabs D * Rabs (1 + x))); [apply Rmult_le_compat_r; [apply Rmult_le_pos|]; assumption|lra]. }
      destruct (Rle_lt_dec (Rabs (B e * B d)) (b (-1022))) as [S'|S'].
      + rewrite VT. eapply Rle_trans; [apply rnd_abs; [|exact S']; apply fmt_b; lia|]. left. eapply Rle_lt_trans; [|exact S]. apply b_le. lia.
      + destruct (rnd_rel (B e * B d)) as (y & Y & EY); [lra|]. fold u in Y. rewrite VT, EY, Rabs_mult. assert (Rabs (1 + y) <= 1 + u) by (eapply Rle_trans; [apply Rabs_triang|]; rewrite Rabs_R1; lra).
        pose proof (Rabs_pos D). pose proof (Rabs_pos (1 + y)). pose proof (Rabs_pos (B e * B d)).
        apply Rle_trans with (Rabs D * (1 + u) / 2 * (1 + u)); [apply Rmult_le_compat; assumption|]. assert ((1 + u) * (1 + u) <= 2) by nra. nra. }
  assert (DIR : (0 <= D /\ 0 <= B t) \/ (D <= 0 /\ B t <= 0)).
  { destruct (Rle_lt_dec 0 D) as [P|P]; [left|right]; split; try lra; rewrite VT.
    - rewrite <- (rnd_fmt 0 fmt_0). apply rnd_le. assert (0 <= B d) by (rewrite VD, <- (rnd_fmt 0 fmt_0); apply rnd_le; lra). nra.
    - rewrite <- (rnd_fmt 0 fmt_0). apply rnd_le. assert (B d <= 0) by (rewrite VD, <- (rnd_fmt 0 fmt_0); apply rnd_le; lra). nra. }
  assert (BT : (B p <= B p + B t <= B c) \/ (B c <= B p + B t <= B p)).
  { destruct DIR as [(D0 & T0)|(D0 & T0)]; [left; rewrite !Rabs_pos_eq in AT by lra|right; rewrite !Rabs_left1 in AT by lra]; unfold D in *; lra. }
  assert (LR : Rabs (B p + B t) <= b 1022) by (apply Rabs_le; apply two_sided in LP; apply two_sided in LC; lra).
  destruct (near_num _ _ 1022 (near_plus p t FP FT) LR ltac:(lia)) as (FR & VR & _). fold r in FR, VR. split; [exact FR|]. rewrite VR.
  destruct BT as [(X & Y)|(X & Y)]; apply rnd_le in X; apply rnd_le in Y; rewrite ?(rnd_fmt (B p) (fmt_B p)), ?(rnd_fmt (B c) (fmt_B c)) in X; rewrite ?(rnd_fmt (B p) (fmt_B p)), ?(rnd_fmt (B c) (fmt_B c)) in Y; [left|right]; split; assumption.
Qed.

(** *** The mean *)
Lemma of_Z_whole i : (Z.abs i <= 2 ^ 53)%Z -> fin (f_of_Z i) = true /\ B (f_of_Z i) = IZR i.
Proof.
  intros Hi. unfold f_of_Z. pose proof (binary_normalize_correct 53 1024 eq_refl eq_refl NE i 0 false) as H. change (BinarySingleNaN.round_mode NE) with ZnearestE in H.
  assert (E : F2R (Float radix2 i 0) = IZR i) by (unfold F2R; cbn [Fnum Fexp]; change (bpow radix2 0) with 1; ring). rewrite E in H.
  rewrite round_generic in H; [|apply valid_rnd_N|apply whole_format, Hi]. rewrite Rlt_bool_true in H; [tauto|].
  rewrite <- abs_IZR. apply Rle_lt_trans with (IZR (2 ^ 53)); [apply IZR_le, Hi|]. rewrite (IZR_Zpower radix2) by discriminate. apply bpow_lt. reflexivity.
Qed.
Lemma b53_round : rndN (b 53 + 1) <= b 53.
Proof.
  assert (Q : b 53 = IZR (2 ^ 53)) by (rewrite (b_opaque 53), (IZR_Zpower radix2) by discriminate; reflexivity). rewrite Q.
  destruct (of_Z_whole 1 ltac:(lia)) as (F1 & V1). destruct (of_Z_whole (2 ^ 53) ltac:(lia)) as (F2 & V2).
  pose proof (near_plus (f_of_Z (2 ^ 53)) (f_of_Z 1) F2 F1) as N.
  assert (E : b64_plus NE (f_of_Z (2 ^ 53)) (f_of_Z 1) = f_of_Z (2 ^ 53)) by (apply B2FF_inj; vm_compute; reflexivity).
  rewrite E, V1, V2 in N. destruct (near_num _ _ 54 N) as (_ & V & _); [|lia|].
  - change 54%Z with (53 + 1)%Z. rewrite b_double, Q, Rabs_pos_eq; lra.
  - rewrite V2 in V. lra.
Qed.
(** The weights of the loop without weights: the sum is between 2 and 2^53 after a round, so that the weight is at most a half. *)
Lemma one_more W : fin W = true -> 1 <= B W <= b 53 -> let W' := b64_plus NE W (b64_abs f_one) in let e := b64_div NE (b64_abs f_one) W' in
  fin W' = true /\ 2 <= B W' <= b 53 /\ fin e = true /\ 0 <= B e <= / 2.
Proof.
  intros F (L & U) W' e. destruct (of_Z_whole 1 ltac:(lia)) as (F1 & V1). change (b64_abs f_one) with (f_of_Z 1) in W', e.
  pose proof (near_plus W (f_of_Z 1) F F1) as N. rewrite V1 in N. fold W' in N.
  assert (P53' : 1 <= b 53) by (rewrite <- b_0; apply b_le; lia). assert (F2 : fmt64 2) by (apply (whole_format 2); lia).
  destruct (near_num _ _ 54 N) as (FW & VW & _); [change 54%Z with (53 + 1)%Z; rewrite b_double, Rabs_pos_eq; lra|lia|].
  assert (BW : 2 <= B W' <= b 53).
  { rewrite VW. split; [rewrite <- (rnd_fmt 2 F2); apply rnd_le; lra|]. eapply Rle_trans; [|apply b53_round]. apply rnd_le. lra. }
  assert (Q : 0 <= 1 / B W' <= / 2).
  { unfold Rdiv. rewrite Rmult_1_l. split; [left; apply Rinv_0_lt_compat; lra|]. apply Rinv_le; lra. }
  pose proof (near_div (f_of_Z 1) W' F1 ltac:(lra)) as ND. rewrite V1 in ND. fold e in ND.
  assert (H2 : b (-1) = / 2) by (rewrite (b_opaque (-1)); reflexivity).
  destruct (near_num _ _ (-1) ND) as (FE & VE & AE); [rewrite Rabs_pos_eq, H2; lra|lia|].
  split; [exact FW|]. split; [exact BW|]. split; [exact FE|]. rewrite H2 in AE. apply two_sided in AE. split; [|lra]. rewrite VE, <- (rnd_fmt 0 fmt_0). apply rnd_le. lra.
Qed.
Lemma mean_loop lo hi vs : forall a W, fin a = true -> fin W = true -> 1 <= B W <= b 53 -> lo <= B a <= hi -> Rabs lo <= b 1022 -> Rabs hi <= b 1022 ->
  Forall (fun x => fin x = true /\ lo <= B x <= hi) vs ->
  let r := fst (fold_left favg_step (combine vs (repeat f_one (length vs))) (a, W)) in fin r = true /\ lo <= B r <= hi.
Proof.
  induction vs as [|x vs IH]; intros a W FA FW BW BA LO HI H; cbn [length repeat combine fold_left]; [cbn; auto|].
  inversion H as [|? ? (FX & BX) H']. subst. unfold favg_step at 2. cbn [fst snd].
  destruct (one_more W FW BW) as (FW' & BW' & FE & BE).
  assert (AB : forall y, lo <= y <= hi -> Rabs y <= b 1022) by (intros y Y; apply two_sided in LO; apply two_sided in HI; apply Rabs_le; lra).
  destruct (step_between a x _ FA FX FE (AB _ BA) (AB _ BX) BE) as (FR & BR).
  apply IH; auto; lra.
Qed.
(** What the loop of AverageStdVectorDouble does when there are no weights. *)
Lemma favg_plain dbg v vs : favg dbg (v :: vs) [] = Ok (fst (fold_left favg_step (combine vs (repeat f_one (length vs))) (v, b64_abs f_one))).
Proof.
  unfold favg. cbn [length fstart skipn repeat combine]. replace (f_lt f_zero (b64_abs f_one)) with true by (vm_compute; reflexivity). destruct dbg; reflexivity.
Qed.
Theorem C169_mean_between : forall dbg values, values <> [] -> Forall (fun x => fin x = true /\ Rabs (B x) <= b 1022) values ->
  exists a, favg dbg values [] = Ok a /\ fin a = true /\
    (exists x y, In x values /\ In y values /\ B x <= B a <= B y).
Proof.
  intros dbg [|v vs] N F; [congruence|]. rewrite favg_plain. eexists. split; [reflexivity|].
  assert (M : exists x y, In x (v :: vs) /\ In y (v :: vs) /\ Forall (fun z => B x <= B z <= B y) (v :: vs)).
  { clear. induction vs as [|w vs (x & y & X & Y & A)].
    - exists v, v. split; [left; reflexivity|]. split; [left; reflexivity|]. constructor; [lra|constructor].
    - assert (X' : forall z, In z (v :: vs) -> In z (v :: w :: vs)) by (cbn; tauto). rewrite Forall_forall in A.
      destruct (Rle_lt_dec (B w) (B x)) as [L|L]; destruct (Rle_lt_dec (B y) (B w)) as [G|G].
      + exists w, w. split; [cbn; tauto|]. split; [cbn; tauto|]. apply Forall_forall. intros z [<-|[<-|I]]; [specialize (A v (or_introl eq_refl))| |specialize (A z (or_intror I))]; lra.
      + exists w, y. split; [cbn; tauto|]. split; [auto|]. apply Forall_forall. intros z [<-|[<-|I]]; [specialize (A v (or_introl eq_refl))| |specialize (A z (or_intror I))]; lra.
      + exists x, w. split; [auto|]. split; [cbn; tauto|]. apply Forall_forall. intros z [<-|[<-|I]]; [specialize (A v (or_introl eq_refl))| |specialize (A z (or_intror I))]; lra.
      + exists x, y. split; [auto|]. split; [auto|]. apply Forall_forall. intros z [<-|[<-|I]]; [specialize (A v (or_introl eq_refl))| |specialize (A z (or_intror I))]; lra. }
  destruct M as (x & y & X & Y & M). rewrite Forall_forall in F, M. destruct (of_Z_whole 1 ltac:(lia)) as (F1 & V1).
  destruct (mean_loop (B x) (B y) vs v (b64_abs f_one)) as (FR & BR).
  - apply F. left. reflexivity.
  - reflexivity.
  - change (b64_abs f_one) with (f_of_Z 1). rewrite V1. split; [lra|]. rewrite <- b_0. apply b_le. lia.
  - apply M. left. reflexivity.
  - apply F, X.
  - apply F, Y.
  - apply Forall_forall. intros z I. split; [apply F|apply M]; right; exact I.
  - split; [exact FR|]. exists x, y. auto.
Qed.
Print Assumptions C169_mean_between.

(** *** How far the mean is off *)
Fixpoint sum_of (v : list fl) : R := match v with [] => 0 | a :: v => B a + sum_of v end.
Lemma step_error p c e M k : fin p = true -> fin c = true -> fin e = true -> M <= b 1022 -> Rabs (B p) <= M -> Rabs (B c) <= M -> 2 <= k -> k <= b 53 -> B e = rndN (1 / k) -> 0 <= B e <= / 2 ->
  Rabs (B (b64_plus NE p (b64_mult NE e (b64_minus NE c p))) - (B p + (B c - B p) / k)) <= 5 * b (-53) * M + b (-1074).
Proof.
  intros FP FC FE LM LP LC K2 K53 VE0 (E0 & E1). set (D := B c - B p). pose proof u_small as (U0 & U1). set (u := b (-53)) in *.
  destruct (step_between p c e FP FC FE ltac:(lra) ltac:(lra) (conj E0 E1)) as (FR & BR).
  assert (LD : Rabs D <= b 1023) by (unfold D, Rminus; eapply Rle_trans; [apply Rabs_triang|]; rewrite Rabs_Ropp; change 1023%Z with (1022 + 1)%Z; rewrite b_double; lra).
  destruct (near_num _ _ 1023 (near_minus c p FC FP) LD ltac:(lia)) as (FD & VD & AD). fold D in VD. set (d := b64_minus NE c p) in *.
  assert (LT : Rabs (B e * B d) <= b 1023) by (rewrite Rabs_mult, (Rabs_pos_eq (B e)) by exact E0; pose proof (Rabs_pos (B d)); nra).
  destruct (near_num _ _ 1023 (near_mult e d FE FD) LT ltac:(lia)) as (FT & VT & _). set (t := b64_mult NE e d) in *. set (r := b64_plus NE p t) in *.
  destruct (plus_err p t FR) as (e4 & L4 & V4). fold r in V4. fold u in L4.
  destruct (sum_rel (B c) (- B p)) as (e2 & L2 & V2); [apply fmt_B|apply generic_format_opp, fmt_B|]. change (B c + - B p) with D in V2. rewrite <- VD in V2. fold u in L2.
  destruct (rnd_rel (1 / k)) as (e1 & L1 & V1).
  { unfold Rdiv. rewrite Rmult_1_l, Rabs_pos_eq by (left; apply Rinv_0_lt_compat; lra). apply Rle_trans with (/ b 53); [|apply Rinv_le; lra].
    assert (I : / b 53 = b (-53)) by (rewrite (b_opaque 53), (b_opaque (-53)); symmetry; apply (bpow_opp radix2 53)). rewrite I. apply b_le. lia. }
  fold u in L1. rewrite <- VE0 in V1.
  destruct (error_N_FLT radix2 (-1074) 53 eq_refl (fun x => negb (Z.even x)) (B e * B d)) as (e3 & h & L3 & LH & _ & V3).
  assert (L3' : Rabs e3 <= u).
  { eapply Rle_trans; [exact L3|]. unfold u. rewrite (b_opaque (-53)). change (bpow radix2 (-53)) with (bpow radix2 (-1 + -52)). rewrite (bpow_plus radix2 (-1) (-52)). right. reflexivity. }
  assert (LH' : Rabs h <= b (-1074) / 2) by (rewrite (b_opaque (-1074)); eapply Rle_trans; [exact LH|]; right; unfold Rdiv; apply Rmult_comm).
  change (FLT_exp (-1074) 53) with (SpecFloat.fexp 53 1024) in V3. rewrite <- VT in V3.
  assert (M0 : 0 <= M) by (eapply Rle_trans; [apply Rabs_pos|exact LP]).
  assert (LR : Rabs (B r) <= M) by (apply Rabs_le; apply two_sided in LP; apply two_sided in LC; lra).
  assert (A4 : Rabs (B r - (B p + B t)) <= 11 / 10 * u * M).
  { assert (S : B p + B t = B r / (1 + e4)) by (rewrite V4; field; apply two_sided in L4; lra).
    rewrite V4 at 1. replace ((B p + B t) * (1 + e4) - (B p + B t)) with ((B p + B t) * e4) by ring. rewrite S. unfold Rdiv. rewrite Rmult_assoc, Rabs_mult.
    assert (Q : Rabs (/ (1 + e4) * e4) <= 11 / 10 * u).
    { rewrite Rabs_mult, Rabs_inv. apply two_sided in L4 as L4'. rewrite (Rabs_pos_eq (1 + e4)) by lra.
      apply Rmult_le_reg_l with (1 + e4); [lra|]. rewrite <- Rmult_assoc, Rinv_r, Rmult_1_l by lra. pose proof (Rabs_pos e4). nra. }
    rewrite Rmult_comm. apply Rmult_le_compat; auto using Rabs_pos. }
  assert (AD2 : Rabs D <= 2 * M) by (unfold D, Rminus; eapply Rle_trans; [apply Rabs_triang|]; rewrite Rabs_Ropp; lra).
  assert (AT : Rabs (B t - D / k) <= 32 / 10 * u * M + b (-1074) / 2).
  { rewrite V3, V1, V2. replace (1 / k * (1 + e1) * (D * (1 + e2)) * (1 + e3) + h - D / k) with (D / k * ((1 + e1) * (1 + e2) * (1 + e3) - 1) + h) by (field; lra).
    eapply Rle_trans; [apply Rabs_triang|]. apply Rplus_le_compat; [|exact LH']. rewrite Rabs_mult.
    assert (DK : Rabs (D / k) <= M).
    { unfold Rdiv. rewrite Rabs_mult, Rabs_inv, (Rabs_pos_eq k) by lra. apply Rmult_le_reg_r with k; [lra|]. rewrite Rmult_assoc, Rinv_l, Rmult_1_r by lra. nra. }
    assert (EE : Rabs ((1 + e1) * (1 + e2) * (1 + e3) - 1) <= 32 / 10 * u).
    { replace ((1 + e1) * (1 + e2) * (1 + e3) - 1) with (e1 + e2 + e3 + (e1 * e2 + e1 * e3 + e2 * e3) + e1 * e2 * e3) by ring.
      assert (P : forall a c, Rabs a <= u -> Rabs c <= u -> Rabs (a * c) <= u * / 64) by (intros x y A C; rewrite Rabs_mult; pose proof (Rabs_pos x); pose proof (Rabs_pos y); apply Rle_trans with (u * u); [apply Rmult_le_compat; assumption|nra]).
      pose proof (P _ _ L1 L2) as P12. pose proof (P _ _ L1 L3') as P13. pose proof (P _ _ L2 L3') as P23.
      assert (P123 : Rabs (e1 * e2 * e3) <= u * / 64) by (apply P; [lra|exact L3']).
      apply two_sided in L1. apply two_sided in L2. apply two_sided in L3'. apply two_sided in P12. apply two_sided in P13. apply two_sided in P23. apply two_sided in P123. apply Rabs_le. lra. }
    rewrite Rmult_comm. apply Rmult_le_compat; auto using Rabs_pos. }
  replace (B r - (B p + D / k)) with ((B r - (B p + B t)) + (B t - D / k)) by ring. eapply Rle_trans; [apply Rabs_triang|]. pose proof (b_pos (-1074)). nra.
Qed.

Lemma error_loop M vs : M <= b 1022 -> forall a W k S, fin a = true -> fin W = true -> B W = IZR k -> (1 <= k)%Z -> (k + Z.of_nat (length vs) <= 2 ^ 53)%Z -> Rabs (B a) <= M ->
  Forall (fun x => fin x = true /\ Rabs (B x) <= M) vs -> Rabs (IZR k * B a - S) <= IZR k * IZR k * (5 * b (-53) * M + b (-1074)) ->
  let r := fst (fold_left favg_step (combine vs (repeat f_one (length vs))) (a, W)) in let n := IZR (k + Z.of_nat (length vs)) in
  Rabs (n * B r - (S + sum_of vs)) <= n * n * (5 * b (-53) * M + b (-1074)).
Proof.
  intros LM. set (dl := 5 * b (-53) * M + b (-1074)). assert (B53 : b 53 = IZR (2 ^ 53)) by (rewrite (b_opaque 53), (IZR_Zpower radix2) by discriminate; reflexivity).
  induction vs as [|x vs IH]; intros a W k S FA FW VW K1 K53 LA H E; cbn [length repeat combine fold_left sum_of].
  - cbn [fst]. rewrite Z.add_0_r, Rplus_0_r. exact E.
  - inversion H as [|? ? (FX & BX) H']. subst. unfold favg_step at 2. cbn [fst snd]. cbn [length] in K53. rewrite Nat2Z.inj_succ in K53.
    assert (BW : 1 <= B W <= b 53) by (rewrite VW, B53; split; apply IZR_le; lia).
    destruct (one_more W FW BW) as (FW' & BW' & FE & BE).
    destruct (of_Z_whole 1 ltac:(lia)) as (F1 & V1). change (b64_abs f_one) with (f_of_Z 1) in *.
    assert (VW' : B (b64_plus NE W (f_of_Z 1)) = IZR (k + 1)).
    { destruct (near_num _ _ 54 (near_plus W (f_of_Z 1) FW F1)) as (_ & V & _); [rewrite V1, VW; change 54%Z with (53 + 1)%Z; rewrite b_double, Rabs_pos_eq; lra|lia|].
      rewrite V, V1, VW, <- plus_IZR. apply rnd_fmt, whole_format. lia. }
    assert (VE : B (b64_div NE (f_of_Z 1) (b64_plus NE W (f_of_Z 1))) = rndN (1 / IZR (k + 1))).
    { assert (H2 : b (-1) = / 2) by (rewrite (b_opaque (-1)); reflexivity).
      destruct (near_num _ _ (-1) (near_div (f_of_Z 1) (b64_plus NE W (f_of_Z 1)) F1 ltac:(lra))) as (_ & V & _); [|lia|rewrite V, V1, VW'; reflexivity].
      rewrite V1, H2. unfold Rdiv. rewrite Rmult_1_l, Rabs_pos_eq by (left; apply Rinv_0_lt_compat; lra). apply Rinv_le; lra. }
    set (e := b64_div NE (f_of_Z 1) (b64_plus NE W (f_of_Z 1))) in *.
    destruct (step_between a x e FA FX FE ltac:(lra) ltac:(lra) BE) as (FR & BR).
    pose proof (step_error a x e M (IZR (k + 1)) FA FX FE LM LA BX ltac:(apply (IZR_le 2); lia) ltac:(rewrite B53; apply IZR_le; lia) VE BE) as SE. fold dl in SE.
    set (r := b64_plus NE a (b64_mult NE e (b64_minus NE x a))) in *.
    assert (LR : Rabs (B r) <= M) by (apply Rabs_le; apply two_sided in LA; apply two_sided in BX; lra).
    replace (k + Z.of_nat (Datatypes.S (length vs)))%Z with ((k + 1) + Z.of_nat (length vs))%Z by lia. rewrite <- Rplus_assoc. apply IH; auto; try lia.
    assert (KP : 1 <= IZR k) by (apply (IZR_le 1); lia). rewrite plus_IZR in SE |- *. set (kk := IZR k) in *.
    replace ((kk + 1) * B r - (S + B x)) with ((kk + 1) * (B r - (B a + (B x - B a) / (kk + 1))) + (kk * B a - S)) by (field; lra).
    eapply Rle_trans; [apply Rabs_triang|]. rewrite Rabs_mult, (Rabs_pos_eq (kk + 1)) by lra.
    assert (D0 : 0 <= dl) by (eapply Rle_trans; [apply Rabs_pos|exact SE]). nra.
Qed.
Theorem C169_mean_error : forall dbg values M, values <> [] -> (Z.of_nat (length values) <= 2 ^ 53)%Z -> M <= b 1022 -> Forall (fun x => fin x = true /\ Rabs (B x) <= M) values ->
  exists a, favg dbg values [] = Ok a /\
    Rabs (B a - sum_of values / INR (length values)) <= INR (length values) * (5 * b (-53) * M + b (-1074)).
Proof.
  intros dbg [|v vs] M N L LM F; [congruence|]. rewrite favg_plain. eexists. split; [reflexivity|]. inversion F as [|? ? (FV & BV) F']. subst.
  destruct (of_Z_whole 1 ltac:(lia)) as (F1 & V1).
  assert (M0 : 0 <= M) by (eapply Rle_trans; [apply Rabs_pos|exact BV]). pose proof u_small as (U0 & _). pose proof (b_pos (-1074)) as E0. set (dl := 5 * b (-53) * M + b (-1074)).
  assert (D0 : 0 <= dl) by (unfold dl; nra).
  pose proof (error_loop M vs LM v (b64_abs f_one) 1 (B v) FV eq_refl V1 ltac:(lia) ltac:(cbn [length] in L; lia) BV F') as E. cbv zeta in E. fold dl in E.
  assert (I0 : Rabs (1 * B v - B v) <= 1 * 1 * dl) by (rewrite Rmult_1_l; replace (B v - B v) with 0 by ring; rewrite Rabs_R0; lra). specialize (E I0).
  set (a := fst (fold_left favg_step _ _)) in *. cbn [sum_of]. change (B v + sum_of vs) with (B v + sum_of vs) in E.
  assert (NN : IZR (1 + Z.of_nat (length vs)) = INR (length (v :: vs))) by (cbn [length]; rewrite INR_IZR_INZ; f_equal; lia). rewrite NN in E.
  assert (NP : 1 <= INR (length (v :: vs))) by (apply (le_INR 1); cbn; lia). set (n := INR (length (v :: vs))) in *.
  replace (B a - (B v + sum_of vs) / n) with ((n * B a - (B v + sum_of vs)) * / n) by (field; lra). rewrite Rabs_mult, Rabs_inv, (Rabs_pos_eq n) by lra.
  apply Rmult_le_reg_r with n; [lra|]. rewrite Rmult_assoc, Rinv_l, Rmult_1_r by lra. lra.
Qed.
Print Assumptions C169_mean_error.

(** *** Weights *)
Lemma fmt_twice x : fmt64 x -> fmt64 (2 * x).
Proof.
  intros F. apply (FLT_format_generic radix2 (-1074) 53) in F. destruct F as [f V L E]. apply (generic_format_FLT radix2 (-1074) 53).
  apply (FLT_spec radix2 (-1074) 53 _ (Float radix2 (Fnum f) (Fexp f + 1))); cbn [Fnum Fexp]; [|exact L|lia]. rewrite V. unfold F2R. cbn [Fnum Fexp]. rewrite bpow_plus. change (bpow radix2 1) with 2. ring.
Qed.
(** A running sum of weights: positive, possibly infinite. *)
Definition positive (W : fl) (m : R) : Prop := W = B754_infinity 53 1024 false \/ (fin W = true /\ m <= B W).
Lemma abs_num w : fin w = true -> fin (b64_abs w) = true /\ B (b64_abs w) = Rabs (B w).
Proof. intros F. unfold b64_abs. rewrite is_finite_Babs, B2R_Babs. auto. Qed.
Lemma add_weight W w m : positive W m -> 0 < m -> fin w = true -> let W' := b64_plus NE W (b64_abs w) in let e := b64_div NE (b64_abs w) W' in
  positive W' m /\ fin e = true /\ 0 <= B e <= 1 /\ (Rabs (B w) <= m -> B e <= / 2).
Proof.
  intros P M0 FW W' e. destruct (abs_num w FW) as (FA & VA). set (a := b64_abs w) in *. assert (A0 : 0 <= B a) by (rewrite VA; apply Rabs_pos).
  assert (INF : W' = B754_infinity 53 1024 false -> positive W' m /\ fin e = true /\ 0 <= B e <= 1 /\ (Rabs (B w) <= m -> B e <= / 2)).
  { intros E. split; [left; exact E|]. unfold e. rewrite E. assert (Z : fin (b64_div NE a (B754_infinity 53 1024 false)) = true /\ B (b64_div NE a (B754_infinity 53 1024 false)) = 0) by (destruct a; try discriminate FA; split; reflexivity).
    destruct Z as (Z1 & Z2). rewrite Z1, Z2. split; [reflexivity|]. split; [lra|intros; lra]. }
  destruct P as [P|(FP & BP)].
  - apply INF. unfold W'. rewrite P. destruct a; try discriminate FA; reflexivity.
  - pose proof (near_plus W a FP FA) as N. fold W' in N. unfold nearest in N. cbv zeta in N. change (FLT_exp (-1074) 53) with (SpecFloat.fexp 53 1024) in N.
    destruct (Rlt_bool _ _); [|apply INF; rewrite N; f_equal; apply Rlt_bool_false; lra]. destruct N as (FW' & VW').
    assert (GE : B W <= B W') by (rewrite VW'; apply Rle_trans with (rndN (B W)); [right; symmetry; apply rnd_fmt, fmt_B|apply rnd_le; lra]).
    assert (GA : B a <= B W') by (rewrite VW'; apply Rle_trans with (rndN (B a)); [right; symmetry; apply rnd_fmt, fmt_B|apply rnd_le; lra]).
    assert (Q : 0 <= B a / B W' <= 1).
    { split; [apply Rmult_le_pos; [exact A0|left; apply Rinv_0_lt_compat; lra]|]. apply Rmult_le_reg_r with (B W'); [lra|]. unfold Rdiv. rewrite Rmult_assoc, Rinv_l, Rmult_1_r, Rmult_1_l by lra. exact GA. }
    destruct (near_num _ _ 0 (near_div a W' FA ltac:(lra))) as (FE & VE & AE); [rewrite b_0, Rabs_pos_eq; lra|lia|]. fold e in FE, VE, AE. rewrite b_0 in AE. apply two_sided in AE.
    assert (E0 : 0 <= B e) by (rewrite VE, <- (rnd_fmt 0 fmt_0); apply rnd_le; lra).
    split; [right; split; [exact FW'|lra]|]. split; [exact FE|]. split; [lra|]. intros LE. rewrite VE. assert (H2 : b (-1) = / 2) by (rewrite (b_opaque (-1)); reflexivity). rewrite <- H2, <- (rnd_fmt (b (-1))) by (apply fmt_b; lia).
    apply rnd_le. rewrite H2. apply Rmult_le_reg_r with (B W'); [lra|]. unfold Rdiv. rewrite Rmult_assoc, Rinv_l, Rmult_1_r by lra.
    assert (D : 2 * B a <= B W'); [|lra]. rewrite VW'.
    rewrite <- (rnd_fmt (2 * B a)) by apply fmt_twice, fmt_B. apply rnd_le. lra.
Qed.

(** The loop after the first weight that is not zero. *)
Lemma eqb_zero w : fin w = true -> f_eqb w f_zero = true <-> B w = 0.
Proof.
  intros F. unfold f_eqb, b64_compare. rewrite Bcompare_correct by auto. change (B f_zero) with 0. destruct (Rcompare_spec (B w) 0); split; intros H1; try discriminate H1; try reflexivity; lra.
Qed.
Lemma favg_weighted (vs : list fl) : forall ws : list fl, length ws = length vs -> Forall (fun w => fin w = true) ws -> (exists w, In w ws /\ B w <> 0) ->
  exists v w rest, In v vs /\ In w ws /\ B w <> 0 /\ (forall p, In p rest -> In (fst p) vs /\ In (snd p) ws) /\ (forall w0 l, ws = w0 :: l -> B w0 <> 0 -> w = w0) /\
  skipn (fstart ws) (combine vs ws) = (v, w) :: rest /\ (fstart ws < length vs)%nat.
Proof.
  induction vs as [|v vs IH]; intros [|w ws] L F (x & X & NX); try discriminate L; [destruct X|].
  inversion F as [|? ? FW F']. subst. cbn [fstart combine length]. destruct (f_eqb w f_zero) eqn:Z.
  - apply eqb_zero in Z; [|exact FW]. destruct X as [<-|X]; [contradiction|].
    destruct (IH ws ltac:(cbn in L; congruence) F' (ex_intro _ x (conj X NX))) as (v' & w' & rest & IV & IW & NW & R & _ & S & LT).
    exists v', w', rest. split; [right; exact IV|]. split; [right; exact IW|]. split; [exact NW|]. split; [intros p P; destruct (R p P); split; right; assumption|].
    split; [intros w0 l E N0; injection E as <- <-; contradiction|]. split; [exact S|lia].
  - exists v, w, (combine vs ws). split; [left; reflexivity|]. split; [left; reflexivity|]. split; [intros C; apply (eqb_zero w FW) in C; congruence|].
    split; [intros [p q] P; cbn [fst snd]; split; right; [apply in_combine_l in P|apply in_combine_r in P]; exact P|]. split; [intros w0 l E _; congruence|]. split; [reflexivity|lia].
Qed.
Lemma favg_run dbg vs ws v w rest : length ws = length vs -> vs <> [] -> fin w = true -> B w <> 0 -> (fstart ws < length vs)%nat -> skipn (fstart ws) (combine vs ws) = (v, w) :: rest ->
  favg dbg vs ws = Ok (fst (fold_left favg_step rest (v, b64_abs w))).
Proof.
  intros L N F NZ LT S. unfold favg. cbv zeta. rewrite L, Nat.eqb_refl, Nat.ltb_irrefl, Bool.andb_false_r. cbn [orb].
  assert (L0 : (0 <? length vs)%nat = true) by (apply Nat.ltb_lt; destruct vs; [congruence|cbn; lia]). rewrite L0. apply Nat.ltb_lt in LT. rewrite LT.
  assert (NE0 : (length vs =? 0)%nat = false) by (destruct vs; [congruence|reflexivity]). rewrite NE0. cbn [negb]. rewrite S.
  destruct (abs_num w F) as (FA & VA). assert (G : f_lt f_zero (b64_abs w) = true).
  { unfold f_lt, b64_compare. rewrite Bcompare_correct by auto. change (B f_zero) with 0. rewrite VA. rewrite Rcompare_Lt; [reflexivity|]. apply Rabs_pos_lt, NZ. }
  rewrite G. destruct dbg; reflexivity.
Qed.

Theorem C169_weighted_between : forall dbg values w0 weights, length (w0 :: weights) = length values -> Forall (fun w => fin w = true) (w0 :: weights) ->
  B w0 <> 0 -> Forall (fun w => Rabs (B w) <= Rabs (B w0)) weights -> Forall (fun x => fin x = true /\ Rabs (B x) <= b 1022) values ->
  exists a, favg dbg values (w0 :: weights) = Ok a /\ fin a = true /\ forall lo hi, Forall (fun x => lo <= B x <= hi) values -> lo <= B a <= hi.
Proof.
  intros dbg values w0 weights L FW N0 LE FV.
  destruct (favg_weighted values (w0 :: weights) L FW (ex_intro _ w0 (conj (or_introl eq_refl) N0))) as (v & w & rest & IV & IW & NW & IR & W0 & S & LT). specialize (W0 _ _ eq_refl N0). subst w.
  rewrite Forall_forall in FW, LE, FV.
  exists (fst (fold_left favg_step rest (v, b64_abs w0))). split; [apply favg_run; auto; destruct values; [discriminate L|discriminate]|].
  assert (LOOP : forall (lo hi : R) rest a W, (forall p, In p rest -> In (fst p) values /\ In (snd p) (w0 :: weights)) -> positive W (Rabs (B w0)) -> fin a = true -> Rabs (B a) <= b 1022 ->
    fin (fst (fold_left favg_step rest (a, W))) = true /\ ((forall x, In x values -> lo <= B x <= hi) -> lo <= B a <= hi -> lo <= B (fst (fold_left favg_step rest (a, W))) <= hi)).
  { clear S IR. intros lo hi. induction rest0 as [|(x, w) rest0 IH]; intros a W IR P FA LA; cbn [fold_left fst]; [auto|]. unfold favg_step at 2 4. cbn [fst snd].
    destruct (IR (x, w) (or_introl eq_refl)) as (IX & IWW). cbn [fst snd] in IX, IWW. destruct (FV x IX) as (FX & LX).
    destruct (add_weight W w (Rabs (B w0)) P (Rabs_pos_lt _ N0) (FW w IWW)) as (P' & FE & BE & HE). cbv zeta in *.
    assert (LW : Rabs (B w) <= Rabs (B w0)) by (destruct IWW as [<-|I]; [lra|auto]). specialize (HE LW).
    destruct (step_between a x _ FA FX FE LA LX (conj (proj1 BE) HE)) as (FR & BR). cbv zeta in BR, FR.
    destruct (IH _ _ (fun p Hp => IR p (or_intror Hp)) P' FR) as (F' & B').
    - apply two_sided in LA. apply two_sided in LX. apply Rabs_le. lra.
    - split; [exact F'|]. intros H BA. apply B'; [exact H|]. specialize (H x IX). lra. }
  destruct (abs_num w0 (FW w0 (or_introl eq_refl))) as (FA0 & VA0).
  assert (P0 : positive (b64_abs w0) (Rabs (B w0))) by (right; rewrite VA0; split; [exact FA0|lra]).
  split; [apply (LOOP 0 0 rest v _ IR P0); apply FV, IV|]. intros lo hi H. rewrite Forall_forall in H. apply (LOOP lo hi rest v _ IR P0); auto; apply FV, IV.
Qed.
Print Assumptions C169_weighted_between.

(** With other weights the average can leave the range of the values: -2^53 and 3 with weights 1 and 2^60 give 4. *)
Theorem C169_weighted_refuted : exists x y w z, fin x = true /\ fin y = true /\ fin w = true /\ fin z = true /\ B x <= 3 /\ B y <= 3 /\ 0 < B w /\ 0 < B z /\
  (forall dbg, exists a, favg dbg [x; y] [w; z] = Ok a /\ fin a = true /\ B a = 4).
Proof.
  exists (f_of_Z (- 2 ^ 53)), (f_of_Z 3), (f_of_Z 1), (binary_normalize 53 1024 eq_refl eq_refl NE 1 60 false).
  destruct (of_Z_whole (- 2 ^ 53) ltac:(lia)) as (F1 & V1). destruct (of_Z_whole 3 ltac:(lia)) as (F2 & V2). destruct (of_Z_whole 1 ltac:(lia)) as (F3 & V3). destruct (of_Z_whole 4 ltac:(lia)) as (F4 & V4).
  assert (VZ : B (binary_normalize 53 1024 eq_refl eq_refl NE 1 60 false) = IZR (2 ^ 60)).
  { pose proof (binary_normalize_correct 53 1024 eq_refl eq_refl NE 1 60 false) as H. change (BinarySingleNaN.round_mode NE) with ZnearestE in H. cbv zeta in H.
    assert (E : F2R (Float radix2 1 60) = bpow radix2 60) by (unfold F2R; cbn [Fnum Fexp]; ring). rewrite E in H. rewrite round_generic in H; [|apply valid_rnd_N|rewrite <- (b_opaque 60); apply fmt_b; lia].
    rewrite Rlt_bool_true in H by (rewrite Rabs_pos_eq by apply bpow_ge_0; apply bpow_lt; reflexivity). rewrite (IZR_Zpower radix2) by discriminate. apply H. }
  split; [exact F1|]. split; [exact F2|]. split; [exact F3|]. split; [reflexivity|]. rewrite V1, V2, V3, VZ. repeat (split; [apply IZR_le || apply IZR_lt; reflexivity || discriminate|]).
  intros dbg. exists (f_of_Z 4). split; [|split; [exact F4|exact V4]].
  assert (E : forall d, match favg d [f_of_Z (- 2 ^ 53); f_of_Z 3] [f_of_Z 1; binary_normalize 53 1024 eq_refl eq_refl NE 1 60 false] with Ok a => B2FF 53 1024 a = B2FF 53 1024 (f_of_Z 4) | _ => False end) by (intros []; vm_compute; reflexivity).
  specialize (E dbg). destruct (favg dbg _ _); try contradiction. apply B2FF_inj in E. congruence.
Qed.
Print Assumptions C169_weighted_refuted.

(** Equal values: their average is that value, whatever the weights. *)
Theorem C169_constant : forall dbg values weights c, length weights = length values -> Forall (fun w => fin w = true) weights -> (exists w, In w weights /\ B w <> 0) ->
  Forall (fun x => fin x = true /\ B x = c) values -> exists a, favg dbg values weights = Ok a /\ fin a = true /\ B a = c.
Proof.
  intros dbg values weights c L FW NZ FV. destruct (favg_weighted values weights L FW NZ) as (v & w & rest & IV & IW & NW & IR & _ & S & LT). rewrite Forall_forall in FW, FV.
  exists (fst (fold_left favg_step rest (v, b64_abs w))). split; [apply favg_run; auto; destruct values; [destruct IV|discriminate]|].
  assert (LOOP : forall rest a W, (forall p, In p rest -> In (fst p) values /\ In (snd p) weights) -> positive W (Rabs (B w)) -> fin a = true -> B a = c ->
    fin (fst (fold_left favg_step rest (a, W))) = true /\ B (fst (fold_left favg_step rest (a, W))) = c).
  { clear S IR. induction rest0 as [|(x, w') rest0 IH]; intros a W IR P FA LA; cbn [fold_left fst]; [auto|]. unfold favg_step at 2 4. cbn [fst snd].
    destruct (IR (x, w') (or_introl eq_refl)) as (IX & IWW). cbn [fst snd] in IX, IWW. destruct (FV x IX) as (FX & VX).
    destruct (add_weight W w' (Rabs (B w)) P (Rabs_pos_lt _ NW) (FW w' IWW)) as (P' & FE & BE & _). cbv zeta in *. set (e := b64_div NE _ _) in *.
    destruct (near_num _ _ 0 (near_minus x a FX FA)) as (FD & VD & _); [rewrite VX, LA, Rminus_diag_eq, Rabs_R0 by reflexivity; apply Rlt_le, b_pos|lia|]. rewrite VX, LA, Rminus_diag_eq, (rnd_fmt 0 fmt_0) in VD by reflexivity.
    destruct (near_num _ _ 0 (near_mult e _ FE FD)) as (FT & VT & _); [rewrite VD, Rmult_0_r, Rabs_R0; apply Rlt_le, b_pos|lia|]. rewrite VD, Rmult_0_r, (rnd_fmt 0 fmt_0) in VT.
    pose proof (near_plus a _ FA FT) as N. rewrite VT, Rplus_0_r in N. unfold nearest in N. cbv zeta in N. change (FLT_exp (-1074) 53) with (SpecFloat.fexp 53 1024) in N.
    rewrite (rnd_fmt (B a) (fmt_B a)), Rlt_bool_true in N by apply abs_B2R_lt_emax. destruct N as (FR & VR). apply IH; [intros p Hp; apply IR; right; exact Hp|exact P'|exact FR|congruence]. }
  destruct (abs_num w (FW w IW)) as (FA0 & VA0). apply LOOP; [exact IR|right; rewrite VA0; split; [exact FA0|lra]|apply FV, IV|apply FV, IV].
Qed.
Print Assumptions C169_constant.

(** *** Standard deviation *)
Lemma fmt_scaled z p : (Z.abs z <= 2 ^ 53)%Z -> (0 <= p)%Z -> fmt64 (IZR z * b p).
Proof.
  intros H P. rewrite (b_opaque p). destruct (Z.eq_dec (Z.abs z) (2 ^ 53)) as [E|E].
  - assert (G : fmt64 (IZR (2 ^ 53) * bpow radix2 p)) by (rewrite (IZR_Zpower radix2), <- bpow_plus by discriminate; rewrite <- (b_opaque (53 + p)); apply fmt_b; lia).
    assert (C : z = (2 ^ 53)%Z \/ z = (- 2 ^ 53)%Z) by lia. destruct C as [->| ->]; [exact G|rewrite opp_IZR, Ropp_mult_distr_l_reverse; apply generic_format_opp, G].
  - apply (generic_format_FLT radix2 (-1074) 53). apply (FLT_spec radix2 (-1074) 53 _ (Float radix2 z p)); [reflexivity| |cbn [Fexp]; lia]. cbn [Fnum]. change (Zpower radix2 53) with (2 ^ 53)%Z. lia.
Qed.
Definition square_step (mean : fl) : fl -> fl -> fl := fun sum x => let delta := b64_minus NE x mean in b64_plus NE sum (b64_mult NE delta delta).
Lemma std_loop mean vs : fin mean = true -> Rabs (B mean) <= b 480 -> forall s k, (0 <= k)%Z -> (k + Z.of_nat (length vs) <= 2 ^ 53)%Z -> fin s = true -> 0 <= B s <= IZR k * b 962 ->
  Forall (fun x => fin x = true /\ Rabs (B x) <= b 480) vs -> let r := fold_left (square_step mean) vs s in
  fin r = true /\ 0 <= B r <= b 1015 /\ (B s = 0 -> Forall (fun x => B x = B mean) vs -> B r = 0).
Proof.
  intros FM LM. assert (B53 : b 53 = IZR (2 ^ 53)) by (rewrite (b_opaque 53), (IZR_Zpower radix2) by discriminate; reflexivity). pose proof (b_pos 962) as P962.
  induction vs as [|x vs IH]; intros s k K0 KN FS (S0 & S1) H; cbn [fold_left length] in *.
  - split; [exact FS|]. split; [|auto]. split; [exact S0|]. eapply Rle_trans; [exact S1|]. change 1015%Z with (53 + 962)%Z. rewrite b_add, B53. apply Rmult_le_compat_r; [lra|]. apply IZR_le. lia.
  - inversion H as [|? ? (FX & LX) H']. subst. unfold square_step at 2 4.
    destruct (near_num _ _ 481 (near_minus x mean FX FM)) as (FD & VD & AD); [unfold Rminus; eapply Rle_trans; [apply Rabs_triang|]; rewrite Rabs_Ropp; change 481%Z with (480 + 1)%Z; rewrite b_double; lra|lia|]. set (d := b64_minus NE x mean) in *.
    destruct (near_num _ _ 962 (near_mult d d FD FD)) as (FQ & VQ & AQ); [rewrite Rabs_mult; change 962%Z with (481 + 481)%Z; rewrite b_add; apply Rmult_le_compat; auto using Rabs_pos|lia|]. set (q := b64_mult NE d d) in *. apply two_sided in AQ.
    assert (Q0 : 0 <= B q) by (rewrite VQ, <- (rnd_fmt 0 fmt_0); apply rnd_le; nra).
    assert (LS : 0 <= B s + B q <= IZR (k + 1) * b 962) by (rewrite plus_IZR; lra).
    destruct (near_num _ _ 1015 (near_plus s q FS FQ)) as (FR & VR & _).
    { rewrite Rabs_pos_eq by lra. eapply Rle_trans; [apply LS|]. change 1015%Z with (53 + 962)%Z. rewrite b_add, B53. apply Rmult_le_compat_r; [lra|]. apply IZR_le. lia. } { lia. }
    destruct (IH (b64_plus NE s q) (k + 1)%Z) as (F' & B' & Z'); try assumption; try lia.
    + rewrite VR. split; [rewrite <- (rnd_fmt 0 fmt_0); apply rnd_le; lra|]. rewrite <- (rnd_fmt (IZR (k + 1) * b 962)) by (apply fmt_scaled; lia). apply rnd_le. lra.
    + split; [exact F'|]. split; [exact B'|]. intros SZ E. inversion E as [|? ? EX E']. subst. apply Z'; [|exact E'].
      assert (DZ : B d = 0) by (rewrite VD, EX, Rminus_diag_eq by reflexivity; apply rnd_fmt, fmt_0).
      assert (QZ : B q = 0) by (rewrite VQ, DZ, Rmult_0_r; apply rnd_fmt, fmt_0).
      rewrite VR, SZ, QZ, Rplus_0_r. apply rnd_fmt, fmt_0.
Qed.
Theorem C169_std_dev : forall dbg values, values <> [] -> (Z.of_nat (length values) <= 2 ^ 53)%Z -> Forall (fun x => fin x = true /\ Rabs (B x) <= b 480) values ->
  exists s, fstd dbg values = Ok s /\ fin s = true /\ 0 <= B s /\ (forall c, Forall (fun x => B x = c) values -> B s = 0).
Proof.
  intros dbg values N L F.
  assert (F' : Forall (fun x => fin x = true /\ Rabs (B x) <= b 1022) values) by (eapply Forall_impl; [|exact F]; intros x (FX & LX); split; [exact FX|eapply Rle_trans; [exact LX|apply b_le; lia]]).
  destruct (C169_mean_between dbg values N F') as (m & EM & FM & x & y & IX & IY & BM). unfold fstd. rewrite EM. cbn [obind]. rewrite Forall_forall in F. pose proof (proj2 (F x IX)) as LX. pose proof (proj2 (F y IY)) as LY.
  assert (LM : Rabs (B m) <= b 480) by (apply two_sided in LX; apply two_sided in LY; apply Rabs_le; lra).
  unfold fstd_about. assert (L0 : (0 <? length values)%nat = true) by (apply Nat.ltb_lt; destruct values; [congruence|cbn; lia]). rewrite L0. unfold cassert. cbn [negb]. rewrite Bool.andb_false_r.
  destruct (length values =? 1)%nat eqn:L1.
  - exists f_zero. split; [reflexivity|]. split; [reflexivity|]. change (B f_zero) with 0. split; [lra|auto].
  - apply Nat.eqb_neq in L1. apply Nat.ltb_lt in L0. cbv zeta.
    match goal with |- context [fold_left ?f values f_zero] => change f with (square_step m) end.
    destruct (std_loop m values FM LM f_zero 0 ltac:(lia) ltac:(lia) eq_refl) as (FS & BS & ZS); [change (B f_zero) with 0; lra|apply Forall_forall; exact F|]. set (sm := fold_left (square_step m) values f_zero) in *.
    rewrite Z.mod_small by lia. destruct (of_Z_whole (Z.of_nat (length values) - 1) ltac:(lia)) as (FN & VN). destruct (of_Z_whole 1 ltac:(lia)) as (F1 & V1).
    assert (NP : 1 <= IZR (Z.of_nat (length values) - 1)) by (apply (IZR_le 1); lia).
    assert (Q : 0 <= 1 / IZR (Z.of_nat (length values) - 1) <= 1) by (unfold Rdiv; rewrite Rmult_1_l; split; [left; apply Rinv_0_lt_compat; lra|rewrite <- Rinv_1; apply Rinv_le; lra]).
    destruct (near_num _ _ 0 (near_div f_one (f_of_Z (Z.of_nat (length values) - 1)) F1 ltac:(lra))) as (FI & VI & AI); [change f_one with (f_of_Z 1); rewrite V1, VN, b_0, Rabs_pos_eq; lra|lia|].
    change (B f_one) with (B (f_of_Z 1)) in VI. rewrite V1, VN in VI. set (iv := b64_div NE f_one _) in *. rewrite b_0 in AI.
    assert (I0 : 0 <= B iv) by (rewrite VI, <- (rnd_fmt 0 fmt_0); apply rnd_le; lra). apply two_sided in AI.
    destruct (near_num _ _ 1015 (near_mult sm iv FS FI)) as (FP & VP & AP); [rewrite Rabs_pos_eq by nra; pose proof (b_pos 1015); nra|lia|]. set (pr := b64_mult NE sm iv) in *.
    assert (P0 : 0 <= B pr) by (rewrite VP, <- (rnd_fmt 0 fmt_0); apply rnd_le; nra).
    destruct (Bsqrt_correct 53 1024 eq_refl eq_refl unop_nan_pl64 NE pr) as (VS & FSQ & _). change (BinarySingleNaN.round_mode NE) with ZnearestE in VS.
    change (Bsqrt 53 1024 eq_refl eq_refl unop_nan_pl64 NE pr) with (b64_sqrt NE pr) in VS, FSQ. exists (b64_sqrt NE pr). split; [reflexivity|]. split; [|split].
    + rewrite FSQ. destruct pr as [sg|sg|sg p H|sg mm e H]; try discriminate FP; [reflexivity|]. destruct sg; [|reflexivity]. exfalso. cbn in P0. assert (Z : F2R (Float radix2 (Zneg mm) e) < 0) by (apply F2R_lt_0; reflexivity). cbn in Z. lra.
    + rewrite VS, <- (rnd_fmt 0 fmt_0). apply rnd_le, sqrt_pos.
    + intros c H. rewrite Forall_forall in H. assert (MC : B m = c) by (pose proof (H x IX); pose proof (H y IY); lra).
      rewrite VS. assert (SZ : B sm = 0) by (apply ZS; [reflexivity|apply Forall_forall; intros z I; rewrite MC; apply H, I]).
      rewrite VP, SZ, Rmult_0_l, (rnd_fmt 0 fmt_0), sqrt_0. apply rnd_fmt, fmt_0.
Qed.
Print Assumptions C169_std_dev.
(** The standard deviation of values that differ can be zero: 0 and 2^-540, whose square is too small. *)
Theorem C169_std_zero_refuted : exists x y, fin x = true /\ fin y = true /\ B x < B y /\ forall dbg, exists s, fstd dbg [x; y] = Ok s /\ B s = 0.
Proof.
  exists f_zero, (binary_normalize 53 1024 eq_refl eq_refl NE 1 (-540) false). split; [reflexivity|]. split; [vm_compute; reflexivity|]. split.
  - pose proof (binary_normalize_correct 53 1024 eq_refl eq_refl NE 1 (-540) false) as H. change (BinarySingleNaN.round_mode NE) with ZnearestE in H. cbv zeta in H.
    assert (E : F2R (Float radix2 1 (-540)) = bpow radix2 (-540)) by (unfold F2R; cbn [Fnum Fexp]; ring). rewrite E in H. rewrite round_generic in H; [|apply valid_rnd_N|rewrite <- (b_opaque (-540)); apply fmt_b; lia].
    rewrite Rlt_bool_true in H by (rewrite Rabs_pos_eq by apply bpow_ge_0; apply bpow_lt; reflexivity). destruct H as (-> & _). change (B f_zero) with 0. apply bpow_gt_0.
  - intros dbg. exists (B754_zero 53 1024 false). split; [|reflexivity].
    assert (E : forall d, match fstd d [f_zero; binary_normalize 53 1024 eq_refl eq_refl NE 1 (-540) false] with Ok a => B2FF 53 1024 a = B2FF 53 1024 (B754_zero 53 1024 false) | _ => False end) by (intros []; vm_compute; reflexivity).
    specialize (E dbg). destruct (fstd dbg _); try contradiction. apply B2FF_inj in E. congruence.
Qed.
Print Assumptions C169_std_zero_refuted.

(** *** What is refused *)
Theorem C169_refused : forall values weights,
  (favg true [] weights = AssertFail /\ fstd true [] = AssertFail) /\
  (length weights <> 0%nat -> length weights <> length values -> favg true values weights = AssertFail) /\
  (values <> [] -> length weights = length values -> Forall (fun w => fin w = true /\ B w = 0) weights -> favg true values weights = AssertFail /\ favg false values weights = UB) /\
  (weights <> [] -> (length weights < length values)%nat -> favg false values weights = UB).
Proof.
  intros values weights. split; [split; reflexivity|]. split; [|split].
  - intros N1 N2. unfold favg. apply Nat.eqb_neq in N1, N2. destruct (0 <? length values)%nat; [|reflexivity]. rewrite N1, N2. reflexivity.
  - intros N L Z. assert (S : fstart weights = length weights).
    { clear - Z. induction Z as [|w ws (F & V) Z IH]; [reflexivity|]. cbn [fstart length]. apply (eqb_zero w F) in V. rewrite V, IH. reflexivity. }
    unfold favg. cbv zeta. rewrite S, L, Nat.eqb_refl, Nat.ltb_irrefl. cbn [orb]. assert (L0 : (0 <? length values)%nat = true) by (apply Nat.ltb_lt; destruct values; [congruence|cbn; lia]). rewrite L0.
    split; [reflexivity|]. rewrite Bool.andb_false_r. unfold cassert. cbn [andb]. assert (NE0 : (length values =? 0)%nat = false) by (destruct values; [congruence|reflexivity]). rewrite NE0. cbn [negb].
    rewrite skipn_all2; [reflexivity|]. rewrite combine_length. lia.
  - intros N L. unfold favg, cassert. cbn [andb]. apply Nat.ltb_lt in L. rewrite L. destruct weights; [congruence|]. reflexivity.
Qed.
Print Assumptions C169_refused.

(** Values that meet the hypotheses: the mean of 1, 2 and 4 is off in the last place. *)
Example ex_mean : match favg true [f_of_Z 1; f_of_Z 2; f_of_Z 4] [] with Ok a => bits_of_b64 a = 4612436618365282986%Z | _ => False end.
Proof. vm_compute. reflexivity. Qed.
Example ex_mean_weighted : match favg true [f_of_Z 1; f_of_Z 2] [f_of_Z (-3); f_of_Z 1] with Ok a => bits_of_b64 a = 4608308318706860032%Z | _ => False end.
Proof. vm_compute. reflexivity. Qed.
Example ex_std : match fstd true [f_of_Z 1; f_of_Z 3; f_of_Z 5] with Ok a => bits_of_b64 a = bits_of_b64 (f_of_Z 2) | _ => False end.
Proof. vm_compute. reflexivity. Qed.
