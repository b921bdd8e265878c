(** C111, C114: damped least squares and the pseudo-inverse, over the real numbers. *)
From Coq Require Import Reals List Lra Lia Bool ZArith.
From Verif Require Import Base MathModel MathProps TotpModel TotpVec EVecModel EVecProps EAngleProps ELinModel.
Import ListNotations.
Open Scope R_scope.

(** ** Sums, products and transposes *)
Lemma dot_scale_fun_l n k u v : dot n (fun i => k * u i) v = k * dot n u v.
Proof. induction n as [|n IH]; cbn [dot]; [ring|]. rewrite IH. ring. Qed.
Lemma dot_scale_fun_r n k u v : dot n u (fun i => k * v i) = k * dot n u v.
Proof. induction n as [|n IH]; cbn [dot]; [ring|]. rewrite IH. ring. Qed.
Lemma dot_plus_fun_r n u v w : dot n u (fun i => v i + w i) = dot n u v + dot n u w.
Proof. induction n as [|n IH]; cbn [dot]; [ring|]. rewrite IH. ring. Qed.
Lemma dot_plus_fun_l n u v w : dot n (fun i => v i + w i) u = dot n v u + dot n w u.
Proof. induction n as [|n IH]; cbn [dot]; [ring|]. rewrite IH. ring. Qed.
(** <A x, y> = <x, A' y>: exchange of the two sums. *)
Lemma adjoint m n (A : mat) x y : dot m (mapply n A x) y = dot n x (mapply m (mtr A) y).
Proof.
  induction m as [|m IH]; cbn [dot].
  - unfold mapply. rewrite (dot_ext n x x _ vzero (veq_refl n x)) by (intros i _; reflexivity). rewrite dot_zero_r. reflexivity.
  - rewrite IH. unfold mapply, mtr. cbn [dot]. rewrite (dot_plus_fun_r n x (fun i => dot m (fun k => A k i) y) (fun i => A m i * y m)).
    f_equal. rewrite (dot_ext n x x (fun i => A m i * y m) (fun i => y m * A m i) (veq_refl n x)) by (intros i _; ring). rewrite dot_scale_fun_r, (dot_comm n x). ring.
Qed.
Lemma mapply_ext r n A B x y : (forall i j, (i < r)%nat -> (j < n)%nat -> A i j = B i j) -> veq n x y -> veq r (mapply n A x) (mapply n B y).
Proof. intros E X i Hi. unfold mapply. apply dot_ext; [intros j Hj; apply E; assumption | exact X]. Qed.
Lemma mapply_mmul n c A B x i : mapply c (mmul n A B) x i = mapply n A (mapply c B x) i.
Proof. unfold mapply at 1 2, mmul. rewrite (dot_comm n (A i)). rewrite adjoint, (dot_comm c x). unfold mapply, mtr. apply dot_ext; [|apply veq_refl]. intros j _. apply dot_comm. Qed.
Lemma mapply_add n A x y i : mapply n A (vadd x y) i = mapply n A x i + mapply n A y i.
Proof. unfold mapply. dots. reflexivity. Qed.
Lemma mapply_sub n A x y i : mapply n A (vsub x y) i = mapply n A x i - mapply n A y i.
Proof. unfold mapply. dots. reflexivity. Qed.
Lemma mapply_id n x i : (i < n)%nat -> mapply n mid x i = x i.
Proof.
  unfold mapply. induction n as [|n IH]; intros H; [lia|]. cbn [dot]. unfold mid at 2. destruct (Nat.eqb_spec i n) as [->|D]; [|rewrite IH by lia; ring].
  assert (Z : forall k, (k <= n)%nat -> dot k (mid n) x = 0). { induction k as [|k IHk]; intros K; [reflexivity|]. cbn [dot]. rewrite IHk by lia. unfold mid. replace (n =? k)%nat with false by (symmetry; apply Nat.eqb_neq; lia). ring. }
  rewrite Z by lia. ring.
Qed.
Lemma mapply_damped n M v x i : (i < n)%nat -> mapply n (damped M v) x i = mapply n M x i + v * x i.
Proof.
  intros H. unfold mapply, damped. rewrite (dot_plus_fun_l n x (M i) (fun j => v * mid i j)), dot_scale_fun_l. pose proof (mapply_id n x i H) as E. unfold mapply in E. rewrite E. reflexivity.
Qed.
Lemma inner_ext n u u' v v' w : veq n u u' -> veq n v v' -> inner n u v w = inner n u' v' w.
Proof. intros U V. induction n as [|n IH]; [reflexivity|]. cbn [inner]. rewrite IH, (U n), (V n) by first [lia | intros i Hi; first [apply U | apply V]; lia]. reflexivity. Qed.
Lemma inner_add_l n u v x w : inner n (vadd u v) x w = inner n u x w + inner n v x w.
Proof. induction n as [|n IH]; cbn [inner]; [ring|]. rewrite IH. unfold vadd. ring. Qed.
Lemma inner_add_r n u v x w : inner n x (vadd u v) w = inner n x u w + inner n x v w.
Proof. induction n as [|n IH]; cbn [inner]; [ring|]. rewrite IH. unfold vadd. ring. Qed.
Lemma inner_as_dot n u v w : inner n u v w = dot n (fun i => w i * u i) v.
Proof. induction n as [|n IH]; [reflexivity|]. cbn [inner dot]. rewrite IH. ring. Qed.
Lemma inner_nonneg n u w : (forall i, (i < n)%nat -> 0 <= w i) -> 0 <= inner n u u w.
Proof. intros W. induction n as [|n IH]; cbn [inner]; [lra|]. specialize (IH ltac:(intros; apply W; lia)). pose proof (Rmult_le_pos _ _ (W n ltac:(lia)) (Rle_0_sqr (u n))) as P. unfold Rsqr in P. lra. Qed.
Lemma inner_zero n u w : (forall i, (i < n)%nat -> 0 <= w i) -> inner n u u w = 0 -> forall i, (i < n)%nat -> w i * u i = 0.
Proof.
  intros W. induction n as [|n IH]; intros Z i Hi; [lia|]. cbn [inner] in Z. pose proof (inner_nonneg n u w ltac:(intros; apply W; lia)) as P. pose proof (Rmult_le_pos _ _ (W n ltac:(lia)) (Rle_0_sqr (u n))) as Q. unfold Rsqr in Q.
  destruct (Nat.eq_dec i n) as [->|D]; [|apply IH; [intros; apply W; lia | lra | lia]]. assert (E : w n * (u n * u n) = 0) by lra. apply Rmult_integral in E. destruct E as [E|E]; [rewrite E; ring|]. apply Rmult_integral in E. destruct E as [E|E]; rewrite E; ring.
Qed.

(** ** Contracts of Eigen's decompositions *)
Definition symmetric (n : nat) (M : mat) : Prop := forall i j, (i < n)%nat -> (j < n)%nat -> M i j = M j i.
Definition positive_definite (n : nat) (M : mat) : Prop := forall x, ~ veq n x vzero -> 0 < dot n x (mapply n M x).
(** llt().solve(r) for a symmetric positive definite matrix solves the system. *)
Definition llt_contract (n : nat) (solve : mat -> vec -> vec) : Prop := forall M r, symmetric n M -> positive_definite n M -> veq n (mapply n M (solve M r)) r.
(** The least singular value: the least stretch of a vector. *)
Definition least_singular (n : nat) (smin : mat -> R) : Prop := forall M, 0 <= smin M /\ forall x, smin M * norm n x <= norm n (mapply n M x).

(** ** C111 *)
(** The damped weighted objective: the weighted sum of the squared residuals of [A x = b], plus [lam] times the squared norm of [x]. *)
Definition objective (m n : nat) (A : mat) (b w : vec) (lam : R) (x : vec) : R :=
  let residual := fun i => mapply n A x i - b i in inner m residual residual w + lam * dot n x x.
Lemma lhs_apply m n A w x i : mapply n (mmul m (fun i k => mtr A i k * w k) A) x i = mapply m (mtr A) (fun k => w k * mapply n A x k) i.
Proof. rewrite mapply_mmul. unfold mapply at 1 3. set (y := mapply n A x). clearbody y. induction m as [|m IH]; [reflexivity|]. cbn [dot]. rewrite IH. ring. Qed.
Lemma lhs_form m n A w x y : dot n y (mapply n (mmul m (fun i k => mtr A i k * w k) A) x) = inner m (mapply n A x) (mapply n A y) w.
Proof.
  rewrite (dot_ext n y y _ (mapply m (mtr A) (fun k => w k * mapply n A x k)) (veq_refl n y)) by (intros i _; apply lhs_apply). rewrite <- adjoint, dot_comm, inner_as_dot. reflexivity.
Qed.
Lemma lhs_symmetric m n A w : symmetric n (mmul m (fun i k => mtr A i k * w k) A).
Proof. intros i j _ _. unfold mmul, mtr. clear n. induction m as [|m IH]; [reflexivity|]. cbn [dot]. rewrite IH. ring. Qed.
Lemma damped_symmetric n M v : symmetric n M -> symmetric n (damped M v).
Proof. intros S i j Hi Hj. unfold damped, mid. rewrite (S i j Hi Hj), (Nat.eqb_sym i j). reflexivity. Qed.
Lemma self_pos n x : ~ veq n x vzero -> 0 < dot n x x.
Proof. intros H. destruct (dot_self_nonneg n x) as [P|P]; [exact P|]. exfalso. apply H. apply (proj1 (dot_self_zero n x)). auto. Qed.
Lemma lhs_definite m n A w smin threshold : (forall i, (i < m)%nat -> 0 <= w i) -> 0 < threshold -> least_singular n smin ->
  threshold <= smin (mmul m (fun i k => mtr A i k * w k) A) -> positive_definite n (mmul m (fun i k => mtr A i k * w k) A).
Proof.
  intros W T L H x NZ. rewrite lhs_form. destruct (inner_nonneg m (mapply n A x) w W) as [P|P]; [exact P|]. exfalso. symmetry in P. pose proof (inner_zero m _ w W P) as Z.
  destruct (L (mmul m (fun i k => mtr A i k * w k) A)) as [_ L2]. specialize (L2 x).
  assert (E : norm n (mapply n (mmul m (fun i k => mtr A i k * w k) A) x) = 0). { apply norm_zero. intros i Hi. rewrite lhs_apply. unfold mapply at 1. rewrite (dot_ext m _ (mtr A i) _ vzero (veq_refl m _)) by (intros k Hk; apply Z; exact Hk). apply dot_zero_r. }
  rewrite E in L2. assert (0 < norm n x) by (apply norm_pos; exact NZ). pose proof (Rmult_lt_0_compat _ _ (Rlt_le_trans _ _ _ T H) H0). lra.
Qed.
Lemma damped_definite m n A w v : (forall i, (i < m)%nat -> 0 <= w i) -> 0 < v -> positive_definite n (damped (mmul m (fun i k => mtr A i k * w k) A) v).
Proof.
  intros W V x NZ. rewrite (dot_ext n x x _ (vadd (mapply n (mmul m (fun i k => mtr A i k * w k) A) x) (vscale v x)) (veq_refl n x)) by (intros i Hi; rewrite mapply_damped by exact Hi; reflexivity).
  dots. rewrite lhs_form. pose proof (inner_nonneg m (mapply n A x) w W). pose proof (Rmult_lt_0_compat _ _ V (self_pos n x NZ)). lra.
Qed.
(** The solution of the normal equations is the minimizer. *)
Lemma normal_equations m n A b w lam x y : (forall j, (j < n)%nat -> mapply m (mtr A) (fun k => w k * mapply n A x k) j + lam * x j = mapply m (mtr A) (fun k => w k * b k) j) ->
  objective m n A b w lam y = objective m n A b w lam x + (inner m (mapply n A (vsub y x)) (mapply n A (vsub y x)) w + lam * dot n (vsub y x) (vsub y x)).
Proof.
  intros N. set (d := vsub y x). set (r := fun i => mapply n A x i - b i). set (e := mapply n A d).
  assert (O : dot n d (mapply m (mtr A) (fun k => w k * r k)) + lam * dot n d x = 0).
  { rewrite <- dot_scale_fun_r, <- dot_plus_fun_r. rewrite (dot_ext n d d _ vzero (veq_refl n d)); [apply dot_zero_r|]. intros j Hj. specialize (N j Hj). unfold vzero.
    assert (E : mapply m (mtr A) (fun k => w k * r k) j = mapply m (mtr A) (fun k => w k * mapply n A x k) j - mapply m (mtr A) (fun k => w k * b k) j).
    { rewrite <- mapply_sub. unfold mapply at 1 2. apply dot_ext; [apply veq_refl|]. intros k _. unfold vsub, r. ring. }
    lra. }
  rewrite <- adjoint in O. fold e in O. assert (OI : inner m r e w = - lam * dot n d x) by (rewrite inner_as_dot, dot_comm; lra).
  unfold objective. cbv zeta. fold r.
  assert (R : veq m (fun i => mapply n A y i - b i) (vadd r e)). { intros i _. unfold vadd, r, e, d. rewrite mapply_sub. ring. }
  rewrite (inner_ext m _ _ _ _ w R R), inner_add_l, !inner_add_r, (inner_sym m e r), OI.
  assert (Y : dot n y y = dot n x x + 2 * dot n d x + dot n d d). { unfold d. dots. rewrite (dot_comm n x y). ring. }
  rewrite Y. ring.
Qed.
(** C111: for non-negative weights, a positive threshold and a positive damping value: the one minimizer of the weighted sum of squared residuals, damped
    exactly when the least singular value is below the threshold. *)
Theorem C111_weighted_least_squares smin solve m n A b w threshold value : llt_contract n solve -> least_singular n smin ->
  (forall i, (i < m)%nat -> 0 <= w i) -> 0 < threshold -> 0 < value ->
  let AtWA := mmul m (fun i k => mtr A i k * w k) A in
  let lam := if Rltb (smin AtWA) threshold then value else 0 in
  let x := wls smin solve m A b w threshold value in
  forall y, objective m n A b w lam x <= objective m n A b w lam y /\ (objective m n A b w lam y = objective m n A b w lam x -> veq n y x).
Proof.
  intros LLT LS W T V lhs lam x y. assert (EL : lam = if Rltb (smin lhs) threshold then value else 0) by reflexivity. clearbody lam.
  set (L := if Rltb (smin lhs) threshold then damped lhs value else lhs).
  assert (S : symmetric n L) by (unfold L; destruct (Rltb _ _); [apply damped_symmetric|]; apply lhs_symmetric).
  assert (P : positive_definite n L). { unfold L. destruct (Rltb (smin lhs) threshold) eqn:E; [apply damped_definite; assumption|]. apply Rltb_false in E. apply (lhs_definite m n A w smin threshold); try assumption; lra. }
  pose proof (LLT L (mapply m (mtr A) (fun i => w i * b i)) S P) as X. fold x in X.
  change (solve L (mapply m (mtr A) (fun i => w i * b i))) with x in X.
  assert (LA : forall z i, (i < n)%nat -> mapply n L z i = mapply n lhs z i + lam * z i). { intros z i Hi. rewrite EL. unfold L. destruct (Rltb _ _); [apply mapply_damped; exact Hi | ring]. }
  assert (N : forall j, (j < n)%nat -> mapply m (mtr A) (fun k => w k * mapply n A x k) j + lam * x j = mapply m (mtr A) (fun k => w k * b k) j).
  { intros j Hj. rewrite <- (X j Hj), LA by exact Hj. unfold lhs. rewrite lhs_apply. reflexivity. }
  rewrite (normal_equations m n A b w lam x y N). set (d := vsub y x).
  assert (Q : inner m (mapply n A d) (mapply n A d) w + lam * dot n d d = dot n d (mapply n L d)).
  { rewrite (dot_ext n d d (mapply n L d) (vadd (mapply n lhs d) (vscale lam d)) (veq_refl n d)) by (intros i Hi; apply LA; exact Hi). dots. unfold lhs. rewrite lhs_form. reflexivity. }
  rewrite Q. assert (D0 : veq n d vzero \/ 0 < dot n d (mapply n L d)).
  { destruct (Req_EM_T (dot n d d) 0) as [Z|Z]; [left; apply (proj1 (dot_self_zero n d)); exact Z|]. right. apply P. intros E. apply Z. apply (proj2 (dot_self_zero n d)). exact E. }
  destruct D0 as [D0|D0].
  - assert (Z : dot n d (mapply n L d) = 0) by (rewrite (dot_ext n d vzero _ _ D0 (veq_refl n _)); apply dot_zero_l). rewrite Z. split; [lra|]. intros _ i Hi. specialize (D0 i Hi). unfold d, vsub, vzero in D0. lra.
  - split; [lra|]. intros E. lra.
Qed.
Print Assumptions C111_weighted_least_squares.
(** Underdetermined systems: without damping an exact solution, the shortest; with damping the one minimizer of the damped sum of squares. *)
Lemma gram_same n A : forall i j, mmul n A (mtr A) i j = mmul n (fun i k => mtr (mtr A) i k * 1) (mtr A) i j.
Proof. intros i j. unfold mmul, mtr. apply dot_ext; [intros k _; ring | apply veq_refl]. Qed.
Theorem C111_underdetermined dbg smin solve m n A b threshold value : llt_contract m solve -> least_singular m smin ->
  (m < n)%nat -> 0 < threshold -> 0 < value ->
  exists x, underdetermined dbg smin solve m n A b threshold value = Ok x /\
    (threshold <= smin (mmul n A (mtr A)) -> veq m (mapply n A x) b /\ forall y, veq m (mapply n A y) b -> norm n x <= norm n y /\ (norm n y = norm n x -> veq n y x)) /\
    (smin (mmul n A (mtr A)) < threshold -> forall y, objective m n A b (fun _ => 1) value x <= objective m n A b (fun _ => 1) value y /\
      (objective m n A b (fun _ => 1) value y = objective m n A b (fun _ => 1) value x -> veq n y x)).
Proof.
  intros LLT LS MN T V. unfold underdetermined, cassert. replace (m <? n)%nat with true by (symmetry; apply Nat.ltb_lt; exact MN). cbn [negb]. rewrite andb_false_r. eexists. split; [reflexivity|].
  set (G := mmul n A (mtr A)).
  assert (GA : forall z i, mapply m G z i = mapply n A (mapply m (mtr A) z) i) by (intros z i; apply mapply_mmul).
  assert (GS : symmetric m G) by (intros i j _ _; unfold G, mmul, mtr; apply dot_comm).
  assert (GF : forall z, dot m z (mapply m G z) = dot n (mapply m (mtr A) z) (mapply m (mtr A) z)).
  { intros z. rewrite (dot_ext m z z _ _ (veq_refl m z) (fun i _ => GA z i)). rewrite dot_comm, adjoint. reflexivity. }
  split.
  - intros H. rewrite (proj2 (Rltb_false _ _)) by lra.
    assert (P : positive_definite m G). { intros z NZ. rewrite GF. destruct (dot_self_nonneg n (mapply m (mtr A) z)) as [P|P]; [exact P|]. exfalso. symmetry in P. apply (proj1 (dot_self_zero n _)) in P.
      destruct (LS G) as [_ L]. specialize (L z). assert (E : norm m (mapply m G z) = 0). { apply norm_zero. intros i Hi. rewrite GA. unfold mapply at 1. rewrite (dot_ext n _ (A i) _ vzero (veq_refl n _) P). apply dot_zero_r. }
      rewrite E in L. assert (0 < norm m z) by (apply norm_pos; exact NZ). pose proof (Rmult_lt_0_compat _ _ (Rlt_le_trans _ _ _ T H) H0). lra. }
    pose proof (LLT G b GS P) as X. set (z := solve G b) in *. set (x := mapply m (mtr A) z).
    assert (AX : veq m (mapply n A x) b) by (intros i Hi; rewrite <- (X i Hi), GA; reflexivity). split; [exact AX|]. intros y AY.
    assert (O : dot n x (vsub y x) = 0). { unfold x at 1. rewrite dot_comm, <- adjoint. rewrite (dot_ext m _ vzero z z); [apply dot_zero_l| |apply veq_refl]. intros i Hi. rewrite mapply_sub, (AY i Hi), (AX i Hi). unfold vzero. ring. }
    assert (Y : dot n y y = dot n x x + dot n (vsub y x) (vsub y x)). { revert O. dots. rewrite (dot_comm n y x). lra. }
    pose proof (dot_self_nonneg n (vsub y x)) as D. split; [apply norm_le; lra|]. intros E. assert (Z : dot n (vsub y x) (vsub y x) = 0). { rewrite <- (norm_sq n y), <- (norm_sq n x), E in Y. lra. }
    apply (proj1 (dot_self_zero n _)) in Z. intros i Hi. specialize (Z i Hi). unfold vsub, vzero in Z. lra.
  - intros H y. rewrite (proj2 (Rltb_true _ _) H).
    assert (P : positive_definite m (damped G value)). { intros z NZ. rewrite (dot_ext m z z _ (vadd (mapply m G z) (vscale value z)) (veq_refl m z)) by (intros i Hi; rewrite mapply_damped by exact Hi; reflexivity). dots. rewrite GF.
      pose proof (dot_self_nonneg n (mapply m (mtr A) z)). pose proof (Rmult_lt_0_compat _ _ V (self_pos m z NZ)). lra. }
    pose proof (LLT (damped G value) b (damped_symmetric m G value GS) P) as X. set (z := solve (damped G value) b) in *. set (x := mapply m (mtr A) z).
    assert (N : forall j, (j < n)%nat -> mapply m (mtr A) (fun k => (fun _ => 1) k * mapply n A x k) j + value * x j = mapply m (mtr A) (fun k => (fun _ => 1) k * b k) j).
    { intros j Hj. cbv beta. assert (E : mapply m (mtr A) (fun k => 1 * b k) j = mapply m (mtr A) (fun k => mapply n A x k + value * z k) j).
      { unfold mapply at 1 2. apply dot_ext; [apply veq_refl|]. intros k Hk. rewrite Rmult_1_l, <- (X k Hk), mapply_damped by exact Hk. rewrite GA. reflexivity. }
      rewrite E. unfold mapply at 1 3. rewrite dot_plus_fun_r, !dot_scale_fun_r. change (x j) with (dot m (mtr A j) z). ring. }
    rewrite (normal_equations m n A b (fun _ => 1) value x y N). pose proof (inner_nonneg m (mapply n A (vsub y x)) (fun _ => 1) ltac:(intros; lra)) as P1. pose proof (dot_self_nonneg n (vsub y x)) as P2. pose proof (Rmult_le_pos _ _ (Rlt_le _ _ V) P2) as P3.
    split; [lra|]. intros E. assert (Z : value * dot n (vsub y x) (vsub y x) = 0) by lra. apply Rmult_integral in Z. destruct Z as [Z|Z]; [lra|]. apply (proj1 (dot_self_zero n _)) in Z. intros i Hi. specialize (Z i Hi). unfold vsub, vzero in Z. lra.
Qed.
Print Assumptions C111_underdetermined.
(** Decompositions that keep the contracts, for one unknown; two equations, or two unknowns in one equation. *)
Example solver_case : llt_contract 1 (fun M r _ => r O / M O O) /\ least_singular 1 (fun M => Rabs (M O O)).
Proof.
  split.
  - intros M r _ P i Hi. replace i with O by lia. assert (D : 0 < M O O). { specialize (P (fun _ => 1)). unfold mapply in P. cbn [dot] in P. rewrite Rmult_1_l, Rmult_1_r, !Rplus_0_l in P. apply P. intros E. specialize (E O ltac:(lia)). unfold vzero in E. lra. }
    unfold mapply. cbn [dot]. field. lra.
  - intros M. split; [apply Rabs_pos|]. intros x. right. unfold norm, mapply. cbn [dot]. rewrite !Rplus_0_l.
    replace (M O O * x O * (M O O * x O)) with (Rsqr (M O O * x O)) by (unfold Rsqr; ring). replace (x O * x O) with (Rsqr (x O)) by reflexivity. rewrite !sqrt_Rsqr_abs, Rabs_mult. reflexivity.
Qed.
(** A square system is refused by the assertion, though the same formula solves it. *)
Theorem C111_square_refuted : exists smin solve A b, llt_contract 1 solve /\ least_singular 1 smin /\ A O O <> 0 /\
  underdetermined true smin solve 1 1 A b (1 / 2) 1 = AssertFail /\ exists x, underdetermined false smin solve 1 1 A b (1 / 2) 1 = Ok x /\ veq 1 (mapply 1 A x) b.
Proof.
  exists (fun M => Rabs (M O O)), (fun M r _ => r O / M O O), (fun _ _ => 1), (fun _ => 5). destruct solver_case as [S1 S2]. split; [exact S1|]. split; [exact S2|]. split; [lra|]. split; [reflexivity|].
  eexists. split; [reflexivity|]. intros i Hi. replace i with O by lia. unfold mmul, mtr, mapply. cbn [dot]. rewrite !Rplus_0_l, Rmult_1_r, Rabs_R1. rewrite (proj2 (Rltb_false 1 (1 / 2))) by lra. field.
Qed.
Print Assumptions C111_square_refuted.

(** ** C114: the pseudo-inverse *)
Definition meq (r c : nat) (A B : mat) : Prop := forall i j, (i < r)%nat -> (j < c)%nat -> A i j = B i j.
(** The columns of a matrix with [r] rows are orthonormal. *)
Definition orthonormal (r k : nat) (U : mat) : Prop := forall a b, (a < k)%nat -> (b < k)%nat -> dot r (fun i => U i a) (fun i => U i b) = mid a b.
Record svd_contract (r c : nat) (A : mat) (d : svd_result) : Prop := {
  sv_u : orthonormal r (Nat.min r c) (svd_u d);
  sv_v : orthonormal c (Nat.min r c) (svd_v d);
  sv_s : forall l, (l < Nat.min r c)%nat -> 0 <= svd_s d l;
  sv_product : meq r c A (mmul (Nat.min r c) (fun i l => svd_u d i l * svd_s d l) (mtr (svd_v d)))
}.
(** With A = U S V' and P = V T U': P A x = V T S V' x and so on. *)
Lemma ortho_apply r k U z : orthonormal r k U -> veq k (mapply r (mtr U) (mapply k U z)) z.
Proof.
  intros O a Ha. rewrite <- mapply_mmul. rewrite <- (mapply_id k z a Ha). unfold mapply. apply dot_ext; [|apply veq_refl]. intros b Hb. apply (O a b Ha Hb).
Qed.
Definition vmul (s x : vec) : vec := fun i => s i * x i.
Lemma mapply_scaled k U s z i : mapply k (fun i l => U i l * s l) z i = mapply k U (vmul s z) i.
Proof. unfold mapply, vmul. induction k as [|k IH]; [reflexivity|]. cbn [dot]. rewrite IH. ring. Qed.
Lemma usv_apply n k U s V x i : mapply n (mmul k (fun i l => U i l * s l) (mtr V)) x i = mapply k U (vmul s (mapply n (mtr V) x)) i.
Proof. rewrite mapply_mmul. apply mapply_scaled. Qed.
Lemma vmul_ext n s x y : veq n x y -> veq n (vmul s x) (vmul s y).
Proof. intros E i Hi. unfold vmul. rewrite (E i Hi). reflexivity. Qed.
(** [x] is a least squares solution of [A x = b], the shortest one, and the only such. *)
Definition shortest_least_squares (r c : nat) (A : mat) (b x : vec) : Prop :=
  (forall y, norm r (vsub (mapply c A x) b) <= norm r (vsub (mapply c A y) b)) /\
  (forall y, norm r (vsub (mapply c A y) b) = norm r (vsub (mapply c A x) b) -> norm c x <= norm c y /\ (norm c y = norm c x -> veq c y x)).
Lemma usv_solution r c k A P U s V t b : orthonormal r k U -> orthonormal c k V ->
  meq r c A (mmul k (fun i l => U i l * s l) (mtr V)) -> meq c r P (mmul k (fun i l => V i l * t l) (mtr U)) ->
  (forall l, (l < k)%nat -> (s l = 0 /\ t l = 0) \/ s l * t l = 1) -> shortest_least_squares r c A b (mapply r P b).
Proof.
  intros OU OV EA EP ST. set (x := mapply r P b).
  assert (AA : forall z, veq r (mapply c A z) (mapply k U (vmul s (mapply c (mtr V) z)))) by (intros z i Hi; rewrite (mapply_ext r c _ _ z z EA (veq_refl c z) i Hi); apply usv_apply).
  assert (XX : veq c x (mapply k V (vmul t (mapply r (mtr U) b)))) by (intros i Hi; unfold x; rewrite (mapply_ext c r _ _ b b EP (veq_refl r b) i Hi); apply usv_apply).
  assert (UA : forall z, veq k (mapply r (mtr U) (mapply c A z)) (vmul s (mapply c (mtr V) z))).
  { intros z l Hl. rewrite (mapply_ext k r (mtr U) (mtr U) _ _ (fun _ _ _ _ => eq_refl) (AA z) l Hl). apply (ortho_apply r k U _ OU l Hl). }
  assert (VX : veq k (mapply c (mtr V) x) (vmul t (mapply r (mtr U) b))).
  { intros l Hl. rewrite (mapply_ext k c (mtr V) (mtr V) _ _ (fun _ _ _ _ => eq_refl) XX l Hl). apply (ortho_apply c k V _ OV l Hl). }
  assert (NE : forall d, dot r (mapply c A d) (vsub (mapply c A x) b) = 0).
  { intros d. rewrite (dot_ext r _ _ _ _ (AA d) (veq_refl r _)), adjoint. rewrite (dot_ext k _ (vmul s (mapply c (mtr V) d)) _ (fun l => s l * t l * mapply r (mtr U) b l - mapply r (mtr U) b l) (veq_refl k _)).
    - assert (Z : forall j, (j <= k)%nat -> dot j (vmul s (mapply c (mtr V) d)) (fun l => s l * t l * mapply r (mtr U) b l - mapply r (mtr U) b l) = 0).
      { induction j as [|j IH]; intros J; [reflexivity|]. cbn [dot]. rewrite IH by lia. unfold vmul. destruct (ST j ltac:(lia)) as [[E1 E2]|E]; [rewrite E1; ring | rewrite E; ring]. }
      apply Z. lia.
    - intros l Hl. rewrite mapply_sub, (UA x l Hl). unfold vmul at 1. rewrite (VX l Hl). unfold vmul. ring. }
  assert (Q : forall y, dot r (vsub (mapply c A y) b) (vsub (mapply c A y) b) = dot r (vsub (mapply c A x) b) (vsub (mapply c A x) b) + dot r (mapply c A (vsub y x)) (mapply c A (vsub y x))).
  { intros y. assert (E : veq r (vsub (mapply c A y) b) (vadd (vsub (mapply c A x) b) (mapply c A (vsub y x)))) by (intros i _; unfold vsub at 1, vadd; rewrite mapply_sub; unfold vsub; ring).
    rewrite (dot_ext r _ _ _ _ E E), dot_add_l, !dot_add_r, (dot_comm r (vsub (mapply c A x) b) (mapply c A (vsub y x))), NE. ring. }
  split.
  - intros y. apply norm_le. rewrite (Q y). pose proof (dot_self_nonneg r (mapply c A (vsub y x))). lra.
  - intros y E. pose proof (Q y) as QY. rewrite <- !norm_sq, E in QY. assert (Z : dot r (mapply c A (vsub y x)) (mapply c A (vsub y x)) = 0) by (rewrite <- norm_sq; lra). apply (proj1 (dot_self_zero r _)) in Z.
    set (d := vsub y x) in *.
    assert (SV : forall l, (l < k)%nat -> s l * mapply c (mtr V) d l = 0).
    { intros l Hl. pose proof (UA d l Hl) as K. unfold vmul in K. rewrite <- K. unfold mapply at 1. rewrite (dot_ext r _ _ _ _ (veq_refl r _) Z). apply dot_zero_r. }
    assert (O : dot c x d = 0).
    { rewrite (dot_ext c _ _ _ _ XX (veq_refl c d)), adjoint. assert (J : forall j, (j <= k)%nat -> dot j (vmul t (mapply r (mtr U) b)) (mapply c (mtr V) d) = 0).
      { induction j as [|j IH]; intros J; [reflexivity|]. cbn [dot]. rewrite IH by lia. unfold vmul. specialize (SV j ltac:(lia)). destruct (ST j ltac:(lia)) as [[E1 E2]|E1]; [rewrite E2; ring|].
        apply Rmult_integral in SV. destruct SV as [SV|SV]; [rewrite SV in E1; lra | rewrite SV; ring]. }
      apply J. lia. }
    assert (Y : dot c y y = dot c x x + dot c d d). { unfold d in *. revert O. dots. rewrite (dot_comm c y x). lra. }
    pose proof (dot_self_nonneg c d) as D. split; [apply norm_le; lra|]. intros EN. rewrite <- (norm_sq c y), <- (norm_sq c x), EN in Y. assert (DZ : dot c d d = 0) by lra.
    apply (proj1 (dot_self_zero c _)) in DZ. intros i Hi. specialize (DZ i Hi). unfold d, vsub, vzero in DZ. lra.
Qed.
(** The decomposition that Pinv computes. *)
Definition used (svd : nat -> nat -> mat -> svd_result) (r c : nat) (A : mat) (flip : bool) : svd_result := if flip && (r <? c)%nat then svd c r (mtr A) else svd r c A.
(** C114: when every singular value is zero or above rcond, the result is the pseudo-inverse: it maps each right hand side to the shortest least squares
    solution. *)
Theorem C114_pseudo_inverse_partial svd r c A rcond flip : (if flip && (r <? c)%nat then svd_contract c r (mtr A) (svd c r (mtr A)) else svd_contract r c A (svd r c A)) -> 0 <= rcond ->
  (forall l, (l < Nat.min r c)%nat -> svd_s (used svd r c A flip) l = 0 \/ rcond < svd_s (used svd r c A flip) l) ->
  forall b, shortest_least_squares r c A b (mapply r (pinv svd r c A rcond flip) b).
Proof.
  intros C R S b. assert (I : forall s, s = 0 \/ rcond < s -> (s = 0 /\ inverted rcond s = 0) \/ s * inverted rcond s = 1).
  { intros s [->|H]; unfold inverted.
    - left. split; [reflexivity|]. rewrite Rabs_R0, (proj2 (Rleb_true 0 rcond) R). reflexivity.
    - right. rewrite Rabs_right by lra. rewrite (proj2 (Rleb_false s rcond)) by lra. field. lra. }
  unfold pinv, used in *. destruct (flip && (r <? c)%nat).
  - destruct C as [OU OV _ EA]. rewrite (Nat.min_comm c r) in *. set (d := svd c r (mtr A)) in *. apply (usv_solution r c (Nat.min r c) A _ (svd_v d) (svd_s d) (svd_u d) (fun l => inverted rcond (svd_s d l)) b OV OU).
    + intros i j Hi Hj. change (A i j) with (mtr A j i). rewrite (EA j i Hj Hi). unfold mmul, mtr. clear. induction (Nat.min r c) as [|k IH]; [reflexivity|]. cbn [dot]. rewrite IH. ring.
    + intros i j _ _. unfold pinv_tall. fold d. unfold mtr at 1. rewrite (Nat.min_comm c r). unfold mmul, mtr. clear. induction (Nat.min r c) as [|k IH]; [reflexivity|]. cbn [dot]. rewrite IH. ring.
    + intros l Hl. apply I, S. exact Hl.
  - destruct C as [OU OV _ EA]. set (d := svd r c A) in *. apply (usv_solution r c (Nat.min r c) A _ (svd_u d) (svd_s d) (svd_v d) (fun l => inverted rcond (svd_s d l)) b OU OV).
    + exact EA.
    + intros i j _ _. reflexivity.
    + intros l Hl. apply I, S. exact Hl.
Qed.
Print Assumptions C114_pseudo_inverse_partial.
(** rcond is an absolute bound: with the suggested value, an invertible matrix with small entries has the inverse zero. *)
Definition svd_one (r c : nat) (A : mat) : svd_result := mkSvd (fun _ _ => 1) (fun _ => Rabs (A O O)) (fun _ _ => if Rltb (A O O) 0 then -1 else 1).
Lemma svd_one_ok A : svd_contract 1 1 A (svd_one 1 1 A).
Proof.
  split; cbn [Nat.min].
  - intros [|a] [|b] Ha Hb; try lia. cbn. ring.
  - intros [|a] [|b] Ha Hb; try lia. cbn. destruct (Rltb (A O O) 0); ring.
  - intros l _. apply Rabs_pos.
  - intros [|i] [|j] Hi Hj; try lia. unfold mmul, mtr. cbn. destruct (Rltb (A O O) 0) eqn:E; [apply Rltb_true in E; rewrite Rabs_left by lra; ring | apply Rltb_false in E; rewrite Rabs_right by lra; ring].
Qed.
Theorem C114_absolute_refuted : exists svd A, svd_contract 1 1 A (svd 1%nat 1%nat A) /\ A O O <> 0 /\ pinv svd 1 1 A suggested_rcond true O O = 0.
Proof.
  exists svd_one, (fun _ _ => 1 / 2000). split; [apply svd_one_ok|]. split; [lra|]. unfold pinv, pinv_tall, suggested_rcond, inverted, mmul, mtr. cbn. rewrite !(Rabs_right (1 / 2000)) by lra.
  rewrite (proj2 (Rleb_true (1 / 2000) (1 / 1000))) by lra. ring.
Qed.
Print Assumptions C114_absolute_refuted.
Example pinv_case : svd_contract 1 1 (fun _ _ => -3) (svd_one 1 1 (fun _ _ => -3)) /\ suggested_rcond < svd_s (svd_one 1 1 (fun _ _ => -3)) O.
Proof. split; [apply svd_one_ok|]. cbn. rewrite Rabs_left by lra. unfold suggested_rcond. lra. Qed.
