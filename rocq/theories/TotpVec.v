(** Facts about the vectors of TotpModel: dot product, norm, Cauchy-Schwarz, unit vectors. *)
From Coq Require Import Reals Lra Psatz.
From Verif Require Import Base MathModel TotpModel.
Open Scope R_scope.

Lemma Rltb_true a b : Rltb a b = true <-> a < b.
Proof. unfold Rltb. destruct (Rlt_dec a b); split; intros; try lra; try discriminate; auto. Qed.
Lemma Rltb_false a b : Rltb a b = false <-> b <= a.
Proof. unfold Rltb. destruct (Rlt_dec a b); split; intros; try lra; try discriminate; auto. Qed.
Lemma Rleb_true a b : Rleb a b = true <-> a <= b.
Proof. unfold Rleb. destruct (Rle_dec a b); split; intros; try lra; try discriminate; auto. Qed.
Lemma Rleb_false a b : Rleb a b = false <-> b < a.
Proof. unfold Rleb. destruct (Rle_dec a b); split; intros; try lra; try discriminate; auto. Qed.
Lemma Reqb_true a b : Reqb a b = true <-> a = b.
Proof. unfold Reqb. destruct (Req_EM_T a b); split; intros; try lra; try discriminate; auto. Qed.
Lemma Reqb_false a b : Reqb a b = false <-> a <> b.
Proof. unfold Reqb. destruct (Req_EM_T a b); split; intros; try lra; try discriminate; auto. Qed.

Lemma div_nonneg a b : 0 <= a -> 0 < b -> 0 <= a / b.
Proof. intros H1 H2. unfold Rdiv. apply Rmult_le_pos; [exact H1|]. left. apply Rinv_0_lt_compat, H2. Qed.

(** Two vectors of [n] entries are the same. *)
Definition veq (n : nat) (u v : vec) : Prop := forall i, (i < n)%nat -> u i = v i.

Lemma veq_refl n u : veq n u u. Proof. intros i _. reflexivity. Qed.
Lemma veq_sym n u v : veq n u v -> veq n v u. Proof. intros H i Hi. symmetry. apply H, Hi. Qed.
Lemma veq_trans n u v w : veq n u v -> veq n v w -> veq n u w.
Proof. intros H1 H2 i Hi. rewrite H1, H2; auto. Qed.

Lemma dot_ext n u u' v v' : veq n u u' -> veq n v v' -> dot n u v = dot n u' v'.
Proof.
  induction n as [|n IH]; intros Hu Hv; cbn [dot]; [reflexivity|].
  rewrite IH, Hu, Hv; auto; intros i Hi; [apply Hu|apply Hv]; lia.
Qed.
Lemma dot_comm n u v : dot n u v = dot n v u.
Proof. induction n; cbn [dot]; [reflexivity|]. rewrite IHn. ring. Qed.
(** The dot product of two combinations of two vectors. *)
Lemma dot_comb n (a b c d : R) u v :
  dot n (fun i => a * u i + b * v i) (fun i => c * u i + d * v i)
  = a * c * dot n u u + (a * d + b * c) * dot n u v + b * d * dot n v v.
Proof. induction n; cbn [dot]; [ring|]. rewrite IHn. ring. Qed.
Lemma dot_comb_r n (c d : R) w u v :
  dot n w (fun i => c * u i + d * v i) = c * dot n w u + d * dot n w v.
Proof. induction n; cbn [dot]; [ring|]. rewrite IHn. ring. Qed.
Lemma dot_scale n a u v : dot n (fun i => a * u i) v = a * dot n u v.
Proof. induction n; cbn [dot]; [ring|]. rewrite IHn. ring. Qed.
Lemma dot_self_nonneg n u : 0 <= dot n u u.
Proof. induction n; cbn [dot]; [lra|]. nra. Qed.
Lemma dot_self_coord n u i : (i < n)%nat -> u i * u i <= dot n u u.
Proof.
  induction n as [|n IH]; intros Hi; [lia|]. cbn [dot].
  pose proof (dot_self_nonneg n u). destruct (Nat.eq_dec i n) as [ -> |N].
  - nra.
  - assert (u i * u i <= dot n u u) by (apply IH; lia). nra.
Qed.
Lemma dot_self_zero n u : dot n u u = 0 <-> veq n u vzero.
Proof.
  split.
  - intros H i Hi. pose proof (dot_self_coord n u i Hi). unfold vzero. nra.
  - intros H. rewrite (dot_ext n u vzero u vzero H H). clear H.
    induction n; cbn [dot]; [reflexivity|]. rewrite IHn. unfold vzero. ring.
Qed.

Lemma norm_ext n u v : veq n u v -> norm n u = norm n v.
Proof. intros H. unfold norm. rewrite (dot_ext n u v u v); auto. Qed.
Lemma norm_nonneg n u : 0 <= norm n u.
Proof. apply sqrt_pos. Qed.
Lemma norm_sq n u : norm n u * norm n u = dot n u u.
Proof. apply sqrt_sqrt, dot_self_nonneg. Qed.
Lemma norm_zero n u : norm n u = 0 <-> veq n u vzero.
Proof.
  rewrite <- dot_self_zero, <- norm_sq. pose proof (norm_nonneg n u). split; intros H1; nra.
Qed.
Lemma norm_pos n u : 0 < norm n u <-> ~ veq n u vzero.
Proof.
  rewrite <- norm_zero. pose proof (norm_nonneg n u). split; intros; lra.
Qed.
(** The norm is the nonnegative number whose square is the dot product. *)
Lemma norm_unique n u r : 0 <= r -> dot n u u = r * r -> norm n u = r.
Proof. intros H1 H2. unfold norm. rewrite H2. apply sqrt_square, H1. Qed.
Lemma norm_scale n a u : norm n (fun i => a * u i) = Rabs a * norm n u.
Proof.
  apply norm_unique; [apply Rmult_le_pos; [apply Rabs_pos|apply norm_nonneg]|].
  rewrite dot_scale, dot_comm, dot_scale.
  replace (Rabs a * norm n u * (Rabs a * norm n u)) with ((Rabs a * Rabs a) * (norm n u * norm n u)) by ring.
  rewrite norm_sq, <- Rabs_mult, Rabs_pos_eq by nra. ring.
Qed.
Lemma norm_sub_sym n u v : norm n (vsub u v) = norm n (vsub v u).
Proof.
  rewrite (norm_ext n (vsub u v) (fun i => (-1) * vsub v u i)) by (intros i _; unfold vsub; ring).
  rewrite norm_scale, Rabs_left by lra. ring.
Qed.
Lemma norm_coord n u i : (i < n)%nat -> Rabs (u i) <= norm n u.
Proof.
  intros Hi. pose proof (dot_self_coord n u i Hi). pose proof (norm_nonneg n u). pose proof (norm_sq n u).
  apply Rabs_le. split; nra.
Qed.

Lemma cauchy_sq n u v : dot n u v * dot n u v <= dot n u u * dot n v v.
Proof.
  pose proof (dot_self_nonneg n v) as Hv.
  pose proof (dot_self_nonneg n (fun i => dot n v v * u i + (- dot n u v) * v i)) as H.
  rewrite dot_comb in H.
  destruct (Req_dec (dot n v v) 0) as [E|N].
  - rewrite E. apply dot_self_zero in E.
    rewrite (dot_ext n u u v vzero) by (try apply veq_refl; exact E).
    replace (dot n u vzero) with 0; [lra|]. clear. induction n; cbn [dot]; [reflexivity|]. unfold vzero in *. lra.
  - assert (0 < dot n v v) by lra.
    assert (0 <= dot n v v * (dot n u u * dot n v v - dot n u v * dot n u v)) by nra. nra.
Qed.
Lemma cauchy n u v : Rabs (dot n u v) <= norm n u * norm n v.
Proof.
  pose proof (cauchy_sq n u v) as H. rewrite <- (norm_sq n u), <- (norm_sq n v) in H.
  pose proof (norm_nonneg n u). pose proof (norm_nonneg n v).
  assert (0 <= norm n u * norm n v) by (apply Rmult_le_pos; auto).
  apply Rabs_le. split; nra.
Qed.
Lemma norm_triangle n u v : norm n (vadd u v) <= norm n u + norm n v.
Proof.
  pose proof (norm_nonneg n u). pose proof (norm_nonneg n v). pose proof (norm_nonneg n (vadd u v)).
  pose proof (norm_sq n (vadd u v)) as E.
  rewrite (dot_ext n (vadd u v) (fun i => 1 * u i + 1 * v i) (vadd u v) (fun i => 1 * u i + 1 * v i)) in E
    by (intros i _; unfold vadd; ring).
  rewrite dot_comb, <- !norm_sq in E.
  pose proof (cauchy n u v) as C. pose proof (Rle_abs (dot n u v)).
  nra.
Qed.

Lemma normalized_pos n u : 0 < norm n u -> normalized n u = (fun i => u i / norm n u).
Proof.
  intros H. unfold normalized. destruct (Rltb 0 (dot n u u)) eqn:E; [reflexivity|].
  apply Rltb_false in E. rewrite <- norm_sq in E. nra.
Qed.
Lemma normalized_unit n u : 0 < norm n u -> norm n (normalized n u) = 1.
Proof.
  intros H. rewrite (normalized_pos n u H).
  rewrite (norm_ext n (fun i => u i / norm n u) (fun i => (/ norm n u) * u i)) by (intros i _; field; lra).
  rewrite norm_scale, Rabs_pos_eq by (left; apply Rinv_0_lt_compat, H). field. lra.
Qed.
Lemma normalized_ext n u v : veq n u v -> veq n (normalized n u) (normalized n v).
Proof.
  intros H i Hi. unfold normalized. rewrite (dot_ext n u v u v H H), (norm_ext n u v H).
  destruct (Rltb 0 (dot n v v)); rewrite (H i Hi); reflexivity.
Qed.
Lemma normalized_scale n c u : 0 < c -> veq n (normalized n (fun i => c * u i)) (normalized n u).
Proof.
  intros Hc i Hi. pose proof (norm_nonneg n u).
  destruct (Req_dec (norm n u) 0) as [E|N].
  - pose proof (proj1 (norm_zero n u) E) as Z.
    unfold normalized. rewrite dot_scale, dot_comm, dot_scale, (proj2 (dot_self_zero n u) Z), !Rmult_0_r.
    unfold Rltb. destruct (Rlt_dec 0 0); [lra|]. rewrite (Z i Hi). unfold vzero. ring.
  - rewrite !normalized_pos; [|lra|rewrite norm_scale, Rabs_pos_eq by lra; apply Rmult_lt_0_compat; lra].
    rewrite norm_scale, Rabs_pos_eq by lra. field. lra.
Qed.
