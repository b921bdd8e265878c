(** Property C18, second part: how much dearer than the cheapest the plan of SimpleAStarPlanner can be. *)
From Verif Require Import Base Cost CostFloat AstarSpec PlannerModel PlannerProofs PlannerProps PlannerNear.
From Flocq Require Import IEEE754.Bits IEEE754.Binary Core Plus_error Relative.
From Coq Require Import Permutation Reals Lra.
Local Open Scope R_scope.

Local Instance P53 : Prec_gt_0 53 := eq_refl.
Local Instance VE : Valid_exp (SpecFloat.fexp 53 1024) := BinarySingleNaN.fexp_correct 53 1024 eq_refl.

(** The real number a double stands for. *)
Definition real (x : binary64) : R := B2R 53 1024 x.

(** [y] can be reached from [x] in at most [n] comparisons, none of which says that the later entry must come out first. *)
Inductive reaches {A : Type} (before : A -> A -> bool) (q : list A) : nat -> A -> A -> Prop :=
| reaches_self n x : reaches before q n x x
| reaches_next n x y z : In y q -> before y x = false -> reaches before q n y z -> reaches before q (Datatypes.S n) x z.

(** What a heap keeps even when the comparison is not transitive: from the entry delivered every other one is reached in
    at most [n] comparisons ([n] the depth of the heap; 1 if no entry precedes the one delivered). *)
Definition pq_chained {A : Type} (Q : pqueue A) (before : A -> A -> bool) (n : nat) (good : A -> Prop) : Prop :=
  forall q x q', pq_inv Q q -> Forall good q -> pq_pop Q q = Some (x, q') ->
  forall y, In y q' -> reaches before q n x y.

(** A finite, non-negative double of at most 2^k. *)
Definition upto (k : Z) (x : binary64) : Prop := b64_ok x /\ is_finite 53 1024 x = true /\ real x <= bpow radix2 k.

Lemma fexp_flt : SpecFloat.fexp 53 1024 = FLT_exp (-1074) 53.
Proof. reflexivity. Qed.

Lemma real_nonneg x : b64_ok x -> 0 <= real x.
Proof.
  intros H. destruct x; cbn in *; unfold real; cbn; try lra. subst s. apply F2R_ge_0. cbn. apply Pos2Z.is_nonneg.
Qed.

Lemma format_real x : generic_format radix2 (SpecFloat.fexp 53 1024) (real x).
Proof. apply generic_format_B2R. Qed.

Lemma rnd_format x : generic_format radix2 (SpecFloat.fexp 53 1024) x -> rnd x = x.
Proof. intros H. apply round_generic; [apply valid_rnd_N|exact H]. Qed.

Lemma u_ro_53 : u_ro radix2 53 = bpow radix2 (-53).
Proof. unfold u_ro. replace (/ 2) with (bpow radix2 (-1)) by reflexivity. rewrite <- bpow_plus. reflexivity. Qed.

(** Sums of doubles: the error is at most 2^-53 of the result. *)
Lemma rnd_plus x y : generic_format radix2 (SpecFloat.fexp 53 1024) x -> generic_format radix2 (SpecFloat.fexp 53 1024) y ->
  Rabs (rnd (x + y) - (x + y)) <= bpow radix2 (-53) * Rabs (rnd (x + y)).
Proof.
  intros FX FY. rewrite fexp_flt in FX, FY.
  destruct (FLT_plus_error_N_ex radix2 (-1074) 53 (fun n => negb (Z.even n)) x y FX FY) as (e & B & EQ).
  fold ZnearestE in EQ. rewrite <- fexp_flt in EQ. change (round radix2 (SpecFloat.fexp 53 1024) ZnearestE (x + y)) with (rnd (x + y)) in EQ.
  rewrite u_ro_53 in B. set (u := bpow radix2 (-53)) in *.
  assert (U : 0 < u) by apply bpow_gt_0.
  assert (U1 : u < 1) by (change 1 with (bpow radix2 0); apply bpow_lt; lia).
  rewrite EQ. set (s := x + y) in *. replace (s * (1 + e) - s) with (s * e) by ring.
  rewrite !Rabs_mult.
  assert (LE : Rabs e <= u * Rabs (1 + e)).
  { assert (D : u / (1 + u) * (1 + u) = u) by (field; lra). set (d := u / (1 + u)) in *.
    assert (0 <= d) by (apply Rmult_le_pos; [lra|apply Rlt_le, Rinv_0_lt_compat; lra]).
    assert (d < 1) by nra.
    apply rabs_le in B. rewrite (Rabs_pos_eq (1 + e)) by lra. unfold Rabs. destruct (Rcase_abs e); nra. }
  pose proof (Rabs_pos s). nra.
Qed.

Lemma upto_lt k x : upto k x -> (k <= 1000)%Z -> real x < bpow radix2 1024.
Proof. intros (_ & _ & H) K. apply (Rle_lt_trans _ _ _ H). apply bpow_lt. lia. Qed.

Lemma rnd_bpow k : (-1074 <= k <= 1023)%Z -> rnd (bpow radix2 k) = bpow radix2 k.
Proof.
  intros K. apply rnd_format. apply generic_format_bpow. rewrite fexp_flt. unfold FLT_exp. lia.
Qed.

(** 1 - 2^-10 times a power of two. *)
Definition near1 (k : Z) : R := IZR 1023 * bpow radix2 (k - 10).
Lemma near1_rnd k : (-1000 <= k <= 1000)%Z -> rnd (near1 k) = near1 k.
Proof.
  intros K. apply rnd_format. unfold near1. apply generic_format_F2R' with (f := Float radix2 1023 (k - 10)); [reflexivity|].
  intros _. unfold cexp. rewrite fexp_flt. unfold FLT_exp.
  rewrite (mag_unique_pos radix2 (IZR 1023 * bpow radix2 (k - 10)) k); [cbn [Fexp]; lia|].
  split.
  - replace (k - 1)%Z with (9 + (k - 10))%Z by lia. rewrite bpow_plus. apply Rmult_le_compat_r; [apply bpow_ge_0|].
    change (bpow radix2 9) with (IZR 512). apply IZR_le. lia.
  - replace k with (10 + (k - 10))%Z at 2 by lia. rewrite bpow_plus. apply Rmult_lt_compat_r; [apply bpow_gt_0|].
    change (bpow radix2 10) with (IZR 1024). apply IZR_lt. lia.
Qed.
Lemma near1_le k : near1 k <= bpow radix2 k.
Proof.
  unfold near1. replace k with (10 + (k - 10))%Z at 2 by lia. rewrite bpow_plus. apply Rmult_le_compat_r; [apply bpow_ge_0|].
  change (bpow radix2 10) with (IZR 1024). apply IZR_le. lia.
Qed.

Lemma tol_real : is_finite 53 1024 tol = true /\ 0 <= real tol /\ real tol <= near1 (-33).
Proof.
  split; [reflexivity|]. split; [apply real_nonneg; reflexivity|].
  unfold real, tol, near1. vm_compute (d64 _). unfold B2R, F2R. cbn [Fnum Fexp cond_Zopp].
  replace (-33 - 10)%Z with (43 + -86)%Z by lia. rewrite bpow_plus. rewrite <- Rmult_assoc.
  apply Rmult_le_compat_r; [apply bpow_ge_0|]. change (bpow radix2 43) with (IZR (2 ^ 43)). rewrite <- mult_IZR. apply IZR_le. vm_compute. discriminate.
Qed.

Lemma compare_real x y : is_finite 53 1024 x = true -> is_finite 53 1024 y = true ->
  b64_compare x y = Some (Rcompare (real x) (real y)).
Proof. intros FX FY. unfold b64_compare. apply Bcompare_correct; auto. Qed.

Lemma ltb_real x y : is_finite 53 1024 x = true -> is_finite 53 1024 y = true -> (b64_ltb x y = true <-> real x < real y).
Proof.
  intros FX FY. unfold b64_ltb. rewrite compare_real by auto. destruct (Rcompare_spec (real x) (real y)); split; intros; try discriminate; auto; lra.
Qed.
Lemma leb_real x y : is_finite 53 1024 x = true -> is_finite 53 1024 y = true -> (b64_leb x y = true <-> real x <= real y).
Proof.
  intros FX FY. unfold b64_leb. rewrite compare_real by auto. destruct (Rcompare_spec (real x) (real y)); split; intros; try discriminate; auto; lra.
Qed.
Lemma abs_real x : real (b64_abs x) = Rabs (real x).
Proof. unfold real, b64_abs. apply B2R_Babs. Qed.
Lemma abs_finite x : is_finite 53 1024 x = true -> is_finite 53 1024 (b64_abs x) = true.
Proof. intros H. unfold b64_abs. rewrite is_finite_Babs. exact H. Qed.

Lemma minus_real k x y : (-900 <= k <= 1000)%Z -> upto k x -> upto k y ->
  is_finite 53 1024 (b64_minus BinarySingleNaN.mode_NE x y) = true /\ real (b64_minus BinarySingleNaN.mode_NE x y) = rnd (real x - real y).
Proof.
  intros K (OX & FX & BX) (OY & FY & BY).
  pose proof (real_nonneg x OX) as PX. pose proof (real_nonneg y OY) as PY.
  pose proof (Bminus_correct 53 1024 eq_refl eq_refl binop_nan_pl64 BinarySingleNaN.mode_NE x y FX FY) as H.
  change (BinarySingleNaN.round_mode BinarySingleNaN.mode_NE) with ZnearestE in H.
  change (round radix2 (SpecFloat.fexp 53 1024) ZnearestE (B2R 53 1024 x - B2R 53 1024 y)) with (rnd (real x - real y)) in H.
  rewrite Rlt_bool_true in H; [destruct H as (H1 & H2 & _); split; [exact H2|exact H1]|].
  apply Rle_lt_trans with (bpow radix2 k); [|apply bpow_lt; lia].
  assert (rnd (real x - real y) <= bpow radix2 k) by (rewrite <- (rnd_bpow k) by lia; apply rnd_le; lra).
  assert (- bpow radix2 k <= rnd (real x - real y)).
  { rewrite <- (rnd_bpow k) by lia. unfold rnd. rewrite <- round_NE_opp. apply rnd_le. lra. }
  unfold Rabs. destruct (Rcase_abs _); lra.
Qed.

Lemma mult_real k x : (-900 <= k <= 1000)%Z -> upto k x ->
  is_finite 53 1024 (b64_mult BinarySingleNaN.mode_NE tol x) = true /\ real (b64_mult BinarySingleNaN.mode_NE tol x) = rnd (real tol * real x) /\
  0 <= rnd (real tol * real x) <= near1 (k - 33).
Proof.
  intros K (OX & FX & BX). pose proof (real_nonneg x OX) as PX. destruct tol_real as (FT & PT & BT).
  assert (B : 0 <= rnd (real tol * real x) <= near1 (k - 33)).
  { split; [rewrite <- rnd_0; apply rnd_le; nra|]. rewrite <- (near1_rnd (k - 33)) by lia. apply rnd_le.
    replace (near1 (k - 33)) with (near1 (-33) * bpow radix2 k).
    - apply Rmult_le_compat; auto.
    - unfold near1. rewrite Rmult_assoc, <- bpow_plus. f_equal. f_equal. lia. }
  pose proof (Bmult_correct 53 1024 eq_refl eq_refl binop_nan_pl64 BinarySingleNaN.mode_NE tol x) as H.
  change (BinarySingleNaN.round_mode BinarySingleNaN.mode_NE) with ZnearestE in H.
  change (round radix2 (SpecFloat.fexp 53 1024) ZnearestE (B2R 53 1024 tol * B2R 53 1024 x)) with (rnd (real tol * real x)) in H.
  rewrite Rlt_bool_true in H.
  - destruct H as (H1 & H2 & _). rewrite FT, FX in H2. split; [exact H2|]. split; [exact H1|exact B].
  - rewrite Rabs_pos_eq by lra. apply Rle_lt_trans with (near1 (k - 33)); [lra|].
    apply Rle_lt_trans with (1 := near1_le _). apply bpow_lt. lia.
Qed.

(** Whether two bounded doubles are approximately equal, in the reals. *)
Lemma approx_real k x y : (-900 <= k <= 1000)%Z -> upto k x -> upto k y ->
  (b64_isapprox tol x y = true <-> Rabs (rnd (real y - real x)) <= rnd (real tol * Rmin (real x) (real y))).
Proof.
  intros K UX UY. destruct (minus_real k y x K UY UX) as [MF MR].
  pose proof UX as (OX & FX & BX). pose proof UY as (OY & FY & BY).
  pose proof (real_nonneg x OX) as PX. pose proof (real_nonneg y OY) as PY.
  unfold b64_isapprox.
  set (m := if b64_ltb (b64_abs y) (b64_abs x) then b64_abs y else b64_abs x).
  assert (M : upto k m /\ real m = Rmin (real x) (real y)).
  { assert (AO : forall z, b64_ok z -> b64_ok (b64_abs z)) by (intros [] ; cbn; auto).
    destruct (b64_ltb (b64_abs y) (b64_abs x)) eqn:LT; subst m.
    - apply ltb_real in LT; [|apply abs_finite; auto|apply abs_finite; auto]. rewrite !abs_real, !Rabs_pos_eq in LT by auto.
      split; [split; [|split]; [auto|apply abs_finite; auto|rewrite abs_real, Rabs_pos_eq; auto]|].
      rewrite abs_real, Rabs_pos_eq by auto. rewrite Rmin_right; lra.
    - assert (~ real y < real x).
      { intros G. assert (b64_ltb (b64_abs y) (b64_abs x) = true); [|congruence].
        apply ltb_real; [apply abs_finite; auto|apply abs_finite; auto|]. rewrite !abs_real, !Rabs_pos_eq by auto. exact G. }
      split; [split; [|split]; [auto|apply abs_finite; auto|rewrite abs_real, Rabs_pos_eq; auto]|].
      rewrite abs_real, Rabs_pos_eq by auto. rewrite Rmin_left; lra. }
  destruct M as [UM MM]. destruct (mult_real k m K UM) as (TF & TR & TB).
  unfold b64_close. rewrite leb_real; [|apply abs_finite; auto|apply abs_finite; auto].
  rewrite !abs_real, MR, TR, <- MM. rewrite (Rabs_pos_eq (rnd (real tol * real m))) by lra. tauto.
Qed.

Lemma approx_close k x y : (-900 <= k <= 1000)%Z -> upto k x -> upto k y -> b64_isapprox tol x y = true ->
  Rabs (real y - real x) <= bpow radix2 (k - 33).
Proof.
  intros K UX UY A. pose proof (approx_real k x y K UX UY) as H. apply H in A. clear H.
  pose proof UX as (OX & FX & BX). pose proof UY as (OY & FY & BY).
  assert (B : rnd (real tol * Rmin (real x) (real y)) <= near1 (k - 33)).
  { destruct (Rle_dec (real x) (real y)); [rewrite Rmin_left by lra; apply (mult_real k x K UX)|rewrite Rmin_right by lra; apply (mult_real k y K UY)]. }
  pose proof (rnd_plus (real y) (- real x) (format_real y) (generic_format_opp _ _ _ (format_real x))) as P.
  replace (real y + - real x) with (real y - real x) in P by ring.
  set (d := real y - real x) in *. set (r := rnd d) in *.
  assert (T : Rabs d <= Rabs r + Rabs (r - d)).
  { replace d with (r - (r - d)) at 1 by ring. eapply Rle_trans; [apply Rabs_triang|]. rewrite Rabs_Ropp. lra. }
  assert (U : bpow radix2 (-53) <= bpow radix2 (-20)) by (apply bpow_le; lia).
  assert (U2 : bpow radix2 (-20) = / IZR 1048576) by reflexivity.
  unfold near1 in B. replace (k - 33)%Z with (10 + (k - 33 - 10))%Z at 1 by lia. rewrite bpow_plus. change (bpow radix2 10) with (IZR 1024).
  pose proof (bpow_ge_0 radix2 (k - 33 - 10)). set (w := bpow radix2 (k - 33 - 10)) in *. pose proof (Rabs_pos r). set (R0 := Rabs r) in *.
  assert (bpow radix2 (-53) * R0 <= / IZR 1048576 * R0) by (rewrite <- U2; apply Rmult_le_compat_r; auto). lra.
Qed.

(** One comparison of the planner. *)
Lemma before_close {S : Type} (h : S -> b64_cost) k (x y : S * b64_cost) : (-900 <= k <= 1000)%Z -> upto k (snd x) -> upto k (snd y) ->
  planner_before h (b64_isapprox tol) y x = false -> real (snd x) <= real (snd y) + bpow radix2 (k - 33).
Proof.
  intros K UX UY. unfold planner_before. destruct (b64_isapprox tol (snd x) (snd y)) eqn:A; intros B.
  - pose proof (approx_close k _ _ K UX UY A) as C. apply rabs_le in C. lra.
  - pose proof (bpow_ge_0 radix2 (k - 33)).
    assert (~ real (snd y) < real (snd x)).
    { intros G. apply Bool.not_true_iff_false in B. apply B.
      apply (ltb_real (snd y) (snd x)); [apply UY|apply UX|exact G]. }
    lra.
Qed.

Lemma reaches_close {S : Type} (h : S -> b64_cost) k q n (x y : S * b64_cost) : (-900 <= k <= 1000)%Z ->
  Forall (fun e => upto k (snd e)) q -> In x q -> reaches (planner_before h (b64_isapprox tol)) q n x y ->
  real (snd x) <= real (snd y) + INR n * bpow radix2 (k - 33).
Proof.
  intros K F IX R. rewrite Forall_forall in F. induction R as [n x|n x y z IY B R IH].
  - pose proof (Rmult_le_pos _ _ (pos_INR n) (bpow_ge_0 radix2 (k - 33))). lra.
  - specialize (IH IY). pose proof (before_close h k x y K (F _ IX) (F _ IY) B). rewrite S_INR. lra.
Qed.

(** ** C18 *)
(** On doubles, with the comparison the code uses (priorities within a relative 1e-10 count as equal): if the priorities
    along repetition-free routes stay below 2^k, the heap delivers entries from which all others are reached in [n] comparisons,
    and the heuristic is consistent up to [kap], then a plan is found whose exact cost exceeds that of any other route to a goal by at
    most (n + 1) 2^(k-33) + kap per step of that route, and 2^(k-53) per step of the plan. *)
Theorem C18_plan_near_optimal :
  forall (S : Type) (eqb : S -> S -> bool) (neigh : S -> list S) (dist : S -> S -> b64_cost) (h : S -> b64_cost)
         (goal : S -> bool) (Q : pqueue (S * b64_cost)) (dbg : bool) (start : S) (NS : list S) (k : Z) (n : nat) (kap : R),
  (-900 <= k <= 1000)%Z -> 0 <= kap -> (forall a b, reflect (a = b) (eqb a b)) ->
  pq_sane Q -> pq_chained Q (planner_before h (b64_isapprox tol)) n (fun e => upto k (snd e)) ->
  finite_region neigh start NS ->
  (forall u x, In u NS -> In x (neigh u) -> upto k (dist u x)) ->
  (forall u, In u NS -> upto k (h u)) ->
  (forall u path ws, route (move neigh dist) start u path ws -> NoDup path -> upto k (cadd (total ws) (h u))) ->
  (forall u x, In u NS -> In x (neigh u) -> real (h u) <= real (dist u x) + real (h x) + kap) ->
  (forall u, In u NS -> goal u = true -> real (h u) = 0) ->
  (exists t path ws, route (move neigh dist) start t path ws /\ goal t = true) ->
  exists path c t ws, returns (fun fuel => plan eqb neigh dist h goal Q dbg fuel start) (path, c) /\
    goal t = true /\ route (move neigh dist) start t path ws /\ NoDup path /\
    forall path' ws' t', goal t' = true -> route (move neigh dist) start t' path' ws' ->
      rsum real ws <= rsum real ws' + INR (length ws') * (INR (n + 1) * bpow radix2 (k - 33) + kap)
                                    + INR (length ws) * bpow radix2 (k - 53).
Proof.
  intros S eqb neigh dist h goal Q dbg start NS k n kap K KP E QS QC [SN CL] DU HU PU CO HG (t & p & ws & R & G).
  assert (ETA : 0 <= bpow radix2 (k - 53)) by apply bpow_ge_0.
  assert (PREC : forall a b, b64_ok a -> is_finite 53 1024 a = true -> b64_ok b -> is_finite 53 1024 b = true ->
            is_finite 53 1024 (@cadd b64_cost a b) = true ->
            b64_ok (@cadd b64_cost a b) /\ real (@cadd b64_cost a b) = rnd (real a + real b)).
  { intros a b OA FA OB FB FS. destruct (add_spec a b OA OB) as [O1 O2]. split; auto. unfold bval in O2. rewrite FS, FA, FB in O2. cbn [vadd] in O2.
    destruct (Rlt_dec _ _); [|discriminate]. injection O2 as O2. exact O2. }
  assert (IN : forall u v path ws, route (move neigh dist) u v path ws -> In u NS -> In v NS).
  { intros u v path ws0 R0. induction R0 as [|u x v w p0 ws0 [S0 _] R0 IH]; intros I; auto. apply IH. eapply CL; eauto. }
  assert (LEH : forall a b, b64_ok a -> b64_ok b -> is_finite 53 1024 (@cadd b64_cost a b) = true ->
      is_finite 53 1024 a = true /\ is_finite 53 1024 b = true /\ real a <= real (@cadd b64_cost a b)).
  { intros a b OA OB FS.
    assert (is_finite 53 1024 a = true /\ is_finite 53 1024 b = true) as [FA FB].
    { destruct (add_spec a b OA OB) as [_ O2]. unfold bval in O2. rewrite FS in O2.
      destruct (is_finite 53 1024 a), (is_finite 53 1024 b); cbn [vadd] in O2; auto; discriminate. }
    split; auto. split; auto. destruct (PREC a b OA FA OB FB FS) as [_ ->].
    rewrite <- (rnd_format (real a)) at 1 by apply format_real. apply rnd_le. pose proof (real_nonneg b OB). lra. }
  assert (TOK : forall ws0 : list b64_cost, (forall w, In w ws0 -> b64_ok w) -> b64_ok (@total b64_cost ws0)).
  { intros ws0. induction ws0 as [|w ws0 IH] using rev_ind; intros H; [exact I|]. rewrite (total_snoc (C := b64_cost)).
    apply add_spec; [apply IH|]; intros; apply H; apply in_or_app; cbn; auto. }
  assert (WOK : forall u v path ws0, route (move neigh dist) u v path ws0 -> In u NS -> forall w, In w ws0 -> b64_ok w).
  { intros u v path ws0 R0. induction R0 as [|u x v w p0 ws0 [S0 ->] R0 IH]; intros I w0; [intros []|].
    intros [<-|J]; [apply (DU u x I S0)|]. apply IH; auto. eapply CL; eauto. }
  assert (TU : forall u path ws0, route (move neigh dist) start u path ws0 -> NoDup path -> upto k (total ws0)).
  { intros u path ws0 R0 ND. destruct (PU _ _ _ R0 ND) as (A & B & D).
    pose proof (TOK ws0 (WOK _ _ _ _ R0 SN)) as OT. destruct (HU u (IN _ _ _ _ R0 SN)) as (OH & FH & _).
    destruct (LEH _ _ OT OH B) as (FT & _ & LE). split; auto. split; auto. lra. }
  assert (ERR : forall a b, upto k a -> upto k b -> upto k (@cadd b64_cost a b) ->
     Rabs (real (@cadd b64_cost a b) - (real a + real b)) <= bpow radix2 (k - 53)).
  { intros a b (OA & FA & _) (OB & FB & _) (OS & FS & BS). destruct (PREC a b OA FA OB FB FS) as [_ EQ].
    pose proof (rnd_plus _ _ (format_real a) (format_real b)) as P. rewrite <- EQ in P.
    rewrite (Rabs_pos_eq (real (@cadd b64_cost a b))) in P by (apply real_nonneg; auto).
    eapply Rle_trans; [exact P|]. replace (k - 53)%Z with (-53 + k)%Z by lia. rewrite bpow_plus. apply Rmult_le_compat_l; [apply bpow_ge_0|exact BS]. }
  destruct (plan_near (C := b64_cost) (upto k) real eqb E neigh dist h goal Q QS (INR n * bpow radix2 (k - 33)) (bpow radix2 (k - 53)) kap)
    with (dbg := dbg) (start := start) (NS := NS) as (path & c & ws1 & t1 & A1 & A2 & A3 & A4 & A5); auto.
  - apply Rmult_le_pos; [apply pos_INR|apply bpow_ge_0].
  - intros q x q' I F PO y J.
    destruct (pop_facts Q QS _ _ _ I PO) as [PE _].
    apply (reaches_close h k q n x y K F); [|eapply QC; eauto]. apply (Permutation_in _ (Permutation_sym PE)). cbn. auto.
  - intros a b (OA & FA & _) (OB & FB & _). apply (ltb_real a b); auto.
  - intros a b (OA & _) (OB & _). apply (cl_geb _ _ b64_laws); auto.
  - intros u path ws0 R0 ND. split; [apply PU with (1 := R0); auto|]. apply ERR; [eapply TU; eauto|apply HU; eapply IN; eauto|eapply PU; eauto].
  - intros u path ws0 x R0 ND IX. apply ERR; [eapply TU; eauto|apply DU; [eapply IN; eauto|auto]|].
    + apply nodup_front in ND. exact ND.
    + assert (R1 : route (move neigh dist) start x (path ++ [x]) (ws0 ++ [dist u x])) by (apply route_snoc with (v := u); auto; split; auto).
      rewrite <- total_snoc. eapply TU; eauto.
  - intros u x IU IX. apply real_nonneg. apply (DU u x IU IX).
  - eauto 6.
  - exists path, c, t1, ws1. split; auto. split; auto. split; auto. split; auto.
    intros path' ws' t' G' R'. eapply Rle_trans; [apply (A5 path' ws' t' G' R')|].
    apply Rplus_le_compat_r. apply Rplus_le_compat_l. apply Rmult_le_compat_l; [apply pos_INR|].
    unfold sig. rewrite plus_INR. cbn [INR].
    assert (3 * bpow radix2 (k - 53) <= bpow radix2 (k - 33)).
    { replace (k - 33)%Z with (20 + (k - 53))%Z by lia. rewrite (bpow_plus radix2 20). change (bpow radix2 20) with (IZR 1048576).
      apply Rmult_le_compat_r; auto. lra. }
    lra.
Qed.
Print Assumptions C18_plan_near_optimal.

(** ** Concrete case *)
(** A queue that keeps the contract for every comparison in which no two entries must both come first: it delivers an entry from
    which every other one is reached in two comparisons. *)
Section King.
Context {A : Type} (before : A -> A -> bool).
Definition direct (a b : A) : bool := negb (before b a).
Fixpoint king (x : A) (q : list A) : A * list A :=
  match q with
  | [] => (x, [])
  | y :: q' =>
      let '(m, r) := king y q' in
      if direct m x || existsb (fun z => direct m z && direct z x) r then (m, x :: r) else (x, m :: r)
  end.
Definition king_queue : pqueue A :=
  {| pq_inv := fun _ => True;
     pq_push := fun x q => q ++ [x];
     pq_pop := fun q => match q with [] => None | x :: q' => Some (king x q') end |}.

Lemma king_perm q : forall x, Permutation (x :: q) (fst (king x q) :: snd (king x q)).
Proof.
  induction q as [|y q IH]; intros x; cbn [king]; auto. specialize (IH y). destruct (king y q) as [m r]. cbn [fst snd] in *.
  destruct (_ || _); cbn [fst snd].
  - transitivity (x :: m :: r); [constructor; exact IH|constructor].
  - constructor. exact IH.
Qed.
Lemma king_queue_sane : pq_sane king_queue.
Proof.
  split; cbn; auto.
  - intros x q. symmetry. apply Permutation_cons_append.
  - intros [|x q] _ H; [congruence|]. pose proof (king_perm q x).
    destruct (king x q) as [m r]. exists m, r. auto.
Qed.

Variable good : A -> Prop.
Hypothesis asym : forall a b, good a -> good b -> before a b = true -> before b a = false.

Lemma king_reach q : forall x, good x -> Forall good q ->
  forall w, In w (snd (king x q)) -> direct (fst (king x q)) w = true \/
    exists z, In z (snd (king x q)) /\ direct (fst (king x q)) z = true /\ direct z w = true.
Proof.
  induction q as [|y q IH]; intros x GX GQ; cbn [king]; [intros w []|].
  inversion GQ as [|? ? GY GQ']; subst. specialize (IH y GY GQ'). pose proof (king_perm q y) as PE.
  destruct (king y q) as [m r]. cbn [fst snd] in *.
  assert (GM : forall z, In z (m :: r) -> good z).
  { intros z J. apply (Permutation_in _ (Permutation_sym PE)) in J. rewrite Forall_forall in GQ. apply GQ. exact J. }
  assert (FLIP : forall z, In z (m :: r) -> direct z x = false -> direct x z = true).
  { intros z J D. unfold direct in *. apply Bool.negb_false_iff in D. rewrite (asym x z); auto. }
  destruct (direct m x) eqn:D; cbn [orb fst snd].
  - intros w [<-|J]; auto. destruct (IH w J) as [|(z & J' & B)]; auto. right. exists z. cbn. auto.
  - destruct (existsb _ r) eqn:EX; cbn [fst snd].
    + intros w [<-|J].
      * right. apply existsb_exists in EX. destruct EX as (z & J & B). apply andb_prop in B. exists z. cbn. auto.
      * destruct (IH w J) as [|(z & J' & B)]; auto. right. exists z. cbn. auto.
    + assert (OUT : forall z, In z r -> direct m z = true -> direct x z = true).
      { intros z J B. apply FLIP; [cbn; auto|]. destruct (direct z x) eqn:DZ; auto. exfalso.
        assert (existsb (fun z => direct m z && direct z x) r = true); [|congruence]. apply existsb_exists. exists z. rewrite B, DZ. auto. }
      intros w [<-|J].
      * left. apply FLIP; cbn; auto.
      * destruct (IH w J) as [B|(z & J' & B & B')]; [left; auto|]. right. exists z. cbn. auto.
Qed.

Lemma king_queue_chained : pq_chained king_queue before 2 good.
Proof.
  intros [|x q] m r _ F PO w J; cbn in PO; [discriminate|]. injection PO as PO. inversion F; subst.
  pose proof (king_reach q x ltac:(assumption) ltac:(assumption) w) as K. pose proof (king_perm q x) as PE. rewrite PO in *. cbn [fst snd] in *.
  unfold direct in K. assert (IN : forall z, In z r -> In z (x :: q)) by (intros z H; apply (Permutation_in _ (Permutation_sym PE)); cbn; auto).
  destruct (K J) as [B|(z & J' & B & B')].
  - apply Bool.negb_true_iff in B. apply reaches_next with w; auto. apply reaches_self.
  - apply Bool.negb_true_iff in B, B'. apply reaches_next with z; auto. apply reaches_next with w; auto. apply reaches_self.
Qed.
End King.

Lemma planner_asym {S : Type} (h : S -> b64_cost) k (a b : S * b64_cost) : (-900 <= k <= 1000)%Z ->
  (forall s, b64_ok (h s)) -> upto k (snd a) -> upto k (snd b) ->
  planner_before h (b64_isapprox tol) a b = true -> planner_before h (b64_isapprox tol) b a = false.
Proof.
  intros K HO UA UB. unfold planner_before.
  assert (SYM : b64_isapprox tol (snd b) (snd a) = b64_isapprox tol (snd a) (snd b)).
  { apply Bool.eq_iff_eq_true. rewrite (approx_real k (snd b) (snd a)), (approx_real k (snd a) (snd b)) by auto.
    rewrite (Rmin_comm (real (snd b))). replace (real (snd a) - real (snd b)) with (- (real (snd b) - real (snd a))) by ring.
    unfold rnd at 1. rewrite round_NE_opp, Rabs_Ropp. fold (rnd (real (snd b) - real (snd a))). tauto. }
  rewrite SYM. destruct (b64_isapprox tol (snd a) (snd b)).
  - intros H. apply (clt_le b64_laws); auto.
  - intros H. apply (clt_le b64_laws); auto; [apply UA|apply UB].
Qed.

(** The value of a double from its parts. *)
Definition parts (x : binary64) : option (bool * positive * Z) := match x with B754_finite _ _ s m e _ => Some (s, m, e) | _ => None end.
Lemma real_parts x m e : parts x = Some (false, m, e) -> real x = IZR (Zpos m) * bpow radix2 e.
Proof. destruct x; try discriminate. intros [= -> -> ->]. reflexivity. Qed.

(** The comparison is not an ordering, as std::priority_queue requires: of three entries each must come out before the next,
    in a circle (priorities 1, 1 + 1.4e-10 and 1 + 0.7e-10; heuristic values 2, 0 and 1). *)
Theorem C18_comparison_refuted :
  exists (h : Z -> b64_cost) (a b c : Z * b64_cost),
    (forall s, upto 2 (h s)) /\ upto 1 (snd a) /\ upto 1 (snd b) /\ upto 1 (snd c) /\
    planner_before h (b64_isapprox tol) a b = true /\ planner_before h (b64_isapprox tol) b c = true /\
    planner_before h (b64_isapprox tol) c a = true.
Proof.
  exists (fun s => if (s =? 0)%Z then d64 0x4000000000000000 else if (s =? 1)%Z then b64_zero else d64 0x3ff0000000000000),
    (0%Z, d64 0x3ff0000000000000), (1%Z, d64 0x3ff0000000099ee8), (2%Z, d64 0x3ff000000004cf74).
  assert (TWO : real (d64 0x4000000000000000) = bpow radix2 1).
  { rewrite (real_parts _ 4503599627370496 (-51)) by (vm_compute; reflexivity). cbn -[IZR]. lra. }
  assert (CHK : forall x k, (1 <= k)%Z -> b64_leb x (d64 0x4000000000000000) && is_finite 53 1024 x && negb (Bsign 53 1024 x) = true -> upto k x).
  { intros x k K H. apply andb_prop in H. destruct H as [H H3]. apply andb_prop in H. destruct H as [H1 H2].
    apply leb_real in H1; auto. rewrite TWO in H1. split; [|split; auto].
    - clear H1. apply Bool.negb_true_iff in H3. destruct x; try discriminate; [exact I|exact H3].
    - apply (Rle_trans _ _ _ H1). apply bpow_le. exact K. }
  split; [|repeat split; try (apply (CHK _ 1%Z); [lia|vm_compute; reflexivity]); vm_compute; reflexivity].
  intros s. apply CHK; [lia|]. destruct (s =? 0)%Z; [|destruct (s =? 1)%Z]; vm_compute; reflexivity.
Qed.
Print Assumptions C18_comparison_refuted.

(** The counterexample of [C18_tolerance_refuted] meets the hypotheses, with 2^k = 2^41 and a consistent heuristic. *)
Lemma tol_upto x : b64_ok x -> is_finite 53 1024 x = true -> b64_leb x (d64 0x4280000000000000) = true -> upto 41 x.
Proof. intros A B D. split; auto. split; auto. apply leb_real in D; auto.
  replace (bpow radix2 41) with (real (d64 0x4280000000000000)); auto.
  rewrite (real_parts _ 4503599627370496 (-11)) by (vm_compute; reflexivity). cbn -[IZR]. lra.
Qed.

Example near_case :
  let Q := king_queue (planner_before tol_h (b64_isapprox tol)) in
  pq_sane Q /\ pq_chained Q (planner_before tol_h (b64_isapprox tol)) 2 (fun e => upto 41 (snd e)) /\
  finite_region tol_neigh 0%Z [0; 1; 2]%Z /\
  (forall u x, In u [0; 1; 2]%Z -> In x (tol_neigh u) -> upto 41 (tol_dist u x)) /\
  (forall u, In u [0; 1; 2]%Z -> upto 41 (tol_h u)) /\
  (forall u path ws, route (move tol_neigh tol_dist) 0%Z u path ws -> NoDup path -> upto 41 (cadd (total ws) (tol_h u))) /\
  (forall u x, In u [0; 1; 2]%Z -> In x (tol_neigh u) -> real (tol_h u) <= real (tol_dist u x) + real (tol_h x) + 0) /\
  (forall u, In u [0; 1; 2]%Z -> (2 =? u)%Z = true -> real (tol_h u) = 0) /\
  plan Z.eqb tol_neigh tol_dist tol_h (Z.eqb 2) Q true 10 0%Z = Ok ([0; 2]%Z, 1%nat).
Proof.
  assert (CHK : forall x, b64_leb x (d64 0x4280000000000000) && is_finite 53 1024 x && negb (Bsign 53 1024 x) = true -> upto 41 x).
  { intros x H. apply andb_prop in H. destruct H as [H H3]. apply andb_prop in H. destruct H as [H1 H2]. apply tol_upto; auto.
    clear H1. apply Bool.negb_true_iff in H3. destruct x; try discriminate; [exact I|exact H3]. }
  cbn zeta. split; [apply king_queue_sane|]. split.
  { apply king_queue_chained. intros a b UA UB. apply planner_asym with 41%Z; auto; [lia|].
    intros s. unfold tol_h. destruct (s =? 1)%Z; [reflexivity|]. destruct (s =? 0)%Z; [reflexivity|exact I]. }
  split; [|split; [|split; [|split; [|split; [|split]]]]].
  - split; [cbn; auto|]. unfold tol_neigh. intros u x _. destruct (u =? 0)%Z; [|destruct (u =? 1)%Z]; cbn; tauto.
  - intros u x IU IX. apply CHK. destruct IU as [<-|[<-|[<-|[]]]]; cbn in IX.
    + destruct IX as [<-|[<-|[]]]; vm_compute; reflexivity.
    + destruct IX as [<-|[]]; vm_compute; reflexivity.
    + destruct IX.
  - intros u IU. apply CHK. destruct IU as [<-|[<-|[<-|[]]]]; vm_compute; reflexivity.
  - intros u path ws R _. apply CHK.
    inversion R as [|? x ? ? ? ? [S0 ->] R1]; subst; [vm_compute; reflexivity|].
    cbn in S0. destruct S0 as [<-|[<-|[]]].
    + inversion R1 as [|? x ? ? ? ? [S1 _]]; subst; [vm_compute; reflexivity|destruct S1].
    + inversion R1 as [|? x ? ? ? ? [S1 ->] R2]; subst; [vm_compute; reflexivity|].
      cbn in S1. destruct S1 as [<-|[]]. inversion R2 as [|? x ? ? ? ? [S2 _]]; subst; [vm_compute; reflexivity|destruct S2].
  - assert (V0 : real (tol_h 0) = IZR (2 ^ 40)) by (rewrite (real_parts _ 4503599627370496 (-12)) by (vm_compute; reflexivity); cbn -[IZR]; lra).
    assert (V1 : real (tol_h 1) = 1) by (rewrite (real_parts _ 4503599627370496 (-52)) by (vm_compute; reflexivity); cbn -[IZR]; lra).
    assert (V2 : real (tol_h 2) = 0) by reflexivity.
    assert (D2 : real (tol_dist 0 2) = IZR (2 ^ 40 + 1)) by (rewrite (real_parts _ 4503599627374592 (-12)) by (vm_compute; reflexivity); cbn -[IZR]; lra).
    assert (D1 : real (tol_dist 0 1) = IZR (2 ^ 40 - 1)) by (rewrite (real_parts _ 9007199254732800 (-13)) by (vm_compute; reflexivity); cbn -[IZR]; lra).
    assert (D3 : real (tol_dist 1 2) = 1) by (rewrite (real_parts _ 4503599627370496 (-52)) by (vm_compute; reflexivity); cbn -[IZR]; lra).
    intros u x IU IX. destruct IU as [<-|[<-|[<-|[]]]]; cbn in IX.
    + destruct IX as [<-|[<-|[]]]; rewrite ?V0, ?V1, ?V2, ?D1, ?D2; cbn; lra.
    + destruct IX as [<-|[]]. rewrite V1, V2, D3. lra.
    + destruct IX.
  - intros u _ H. apply Z.eqb_eq in H. subst. reflexivity.
  - vm_compute. reflexivity.
Qed.
