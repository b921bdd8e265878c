(** How far the double M_PI is from pi. *)
From Coq Require Import Reals Lra QArith Qreals Machin Ratan.
Open Scope R_scope.

(** The terms of 2 atan (1/3) + atan (1/7) = pi / 4 as rational numbers. *)
Definition q_odd (n : nat) : Q := inject_Z (Z.of_nat (2 * n + 1)).
Fixpoint q_power (q : Q) (n : nat) : Q := match n with O => 1%Q | S m => (q * q_power q m)%Q end.
Definition q_term (n : nat) : Q := (2 * (q_power (1 # 3) (2 * n + 1) / q_odd n) + q_power (1 # 7) (2 * n + 1) / q_odd n)%Q.
Fixpoint q_sum (n : nat) : Q := match n with O => q_term 0 | S m => Qred (q_sum m + (if Nat.even (S m) then q_term (S m) else - q_term (S m)))%Q end.
Lemma q_pow q n : Q2R (q_power q n) = Q2R q ^ n.
Proof. induction n as [|n IH]; [apply RMicromega.Q2R_1|]. cbn [q_power pow]. rewrite Q2R_mult, IH. reflexivity. Qed.
Lemma q_term_val n : Q2R (q_term n) = PI_2_3_7_tg n.
Proof.
  unfold q_term, PI_2_3_7_tg, Ratan_seq, q_odd. assert (N : ~ (inject_Z (Z.of_nat (2 * n + 1)) == 0)%Q).
  { intros X. unfold Qeq in X. cbn in X. rewrite Nat.add_1_r in X. cbn in X. discriminate. }
  assert (V : Q2R (inject_Z (Z.of_nat (2 * n + 1))) = INR (2 * n + 1)). { rewrite INR_IZR_INZ. unfold Q2R, inject_Z. cbn. field. }
  rewrite Q2R_plus, Q2R_mult, !Q2R_div, V, !q_pow by exact N.
  replace (Q2R 2) with 2 by (unfold Q2R; cbn; field). replace (Q2R (1 # 3)) with (/ 3) by (unfold Q2R; cbn; field). replace (Q2R (1 # 7)) with (/ 7) by (unfold Q2R; cbn; field). reflexivity.
Qed.
Lemma q_sum_val n : Q2R (q_sum n) = sum_f_R0 (tg_alt PI_2_3_7_tg) n.
Proof.
  induction n as [|n IH]; [cbn [q_sum sum_f_R0]; rewrite q_term_val; unfold tg_alt; cbn; ring|]. cbn [q_sum sum_f_R0]. rewrite (Qeq_eqR _ _ (Qred_correct _)), Q2R_plus, IH. f_equal. unfold tg_alt.
  destruct (Nat.even (S n)) eqn:E.
  - apply Nat.even_spec in E. destruct E as [k ->]. rewrite pow_1_even, q_term_val. ring.
  - rewrite <- Nat.negb_odd in E. apply Bool.negb_false_iff, Nat.odd_spec in E. destruct E as [k ->]. rewrite Nat.add_1_r, pow_1_odd, Q2R_opp, q_term_val. ring.
Qed.
(** M_PI is 7074237752028440 / 2^51, and pi is between it and 1.23e-16 more. *)
Lemma pi_bounds : 7074237752028440 / 2251799813685248 < PI < 7074237752028440 / 2251799813685248 + 123 / 10 ^ 18.
Proof.
  destruct (PI_2_3_7_ineq 9) as [L U]. rewrite <- q_sum_val in L, U.
  assert (A : Q2R (7074237752028440 # 9007199254740992) < Q2R (q_sum (S (2 * 9)))) by (apply Qlt_Rlt; vm_compute; reflexivity).
  assert (C : Q2R (q_sum (2 * 9)) < Q2R ((7074237752028440 # 9007199254740992) + (123 # 4000000000000000000))) by (apply Qlt_Rlt; vm_compute; reflexivity).
  rewrite Q2R_plus in C.
  assert (V : Q2R (7074237752028440 # 9007199254740992) = 7074237752028440 / 9007199254740992) by reflexivity.
  assert (W : Q2R (123 # 4000000000000000000) = 123 / 4000000000000000000) by reflexivity. rewrite V in A, C. rewrite W in C.
  split; lra.
Qed.
