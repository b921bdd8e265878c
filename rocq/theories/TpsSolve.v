(** Linear systems: a system has a solution when its right side is orthogonal to the kernel of the transpose; a solver exists. *)
From Coq Require Import Reals Lra Lia.
From Verif Require Import Base MathModel TotpModel TotpVec ELinModel ELinProps EFitProps.
Open Scope R_scope.
Definition residual (n : nat) (A : mat) (b x : vec) : vec := fun i => b i - mapply n A x i.
Definition perpendicular (m n : nat) (A : mat) (r : vec) : Prop := forall j, (j < n)%nat -> dot m r (fun i => A i j) = 0.
Lemma perp_apply m n A r x : perpendicular m n A r -> dot m r (mapply n A x) = 0.
Proof.
  intros P. rewrite dot_comm, adjoint, dot_comm. induction n; cbn [dot]; [reflexivity|]. rewrite IHn by (intros j J; apply P; lia).
  replace (mapply m (mtr A) r n) with 0; [ring|]. unfold mapply, mtr. rewrite dot_comm. symmetry. apply P. lia.
Qed.
Lemma dot_minus_fun_l n u v w : dot n (fun i => v i - w i) u = dot n v u - dot n w u.
Proof. induction n; cbn [dot]; [ring|]. rewrite IHn. ring. Qed.
(** Gram-Schmidt: the coefficients of the projection on the columns. *)
Lemma project (m n : nat) (A : mat) : forall b, { x : vec | perpendicular m n A (residual n A b x) /\ forall j, (j < n)%nat -> veq m (fun i => A i j) vzero -> x j = 0 }.
Proof.
  induction n as [|n IH]; intros b; [exists vzero; split; [intros j J; lia | intros; reflexivity]|].
  destruct (IH b) as (xb & PB & ZB). destruct (IH (fun i => A i n)) as (xa & PA & ZA). set (ra := residual n A (fun i => A i n) xa) in *. set (rb := residual n A b xb) in *.
  pose (put := fun (x : vec) (c : R) (j : nat) => if (j =? n)%nat then c else x j).
  assert (PUT : forall x c i, mapply (S n) A (put x c) i = mapply n A x i + A i n * c).
  { intros x c i. unfold mapply. cbn [dot]. unfold put at 2. rewrite Nat.eqb_refl. f_equal. apply dot_ext; [apply veq_refl|]. intros j J. unfold put. destruct (Nat.eqb_spec j n); [lia|reflexivity]. }
  destruct (Req_EM_T (dot m ra ra) 0) as [Z|NZ].
  - exists (put xb 0). assert (E : forall i, residual (S n) A b (put xb 0) i = rb i) by (intros i; unfold residual, rb; rewrite PUT; unfold residual; ring). split.
    + intros j J. rewrite (dot_ext m _ rb _ (fun i => A i j)) by (intros i _; first [apply E|reflexivity]). destruct (Nat.eq_dec j n) as [->|NE]; [|apply PB; lia].
      apply dot_self_zero in Z. rewrite (dot_ext m rb rb (fun i => A i n) (mapply n A xa)); [apply perp_apply; exact PB | apply veq_refl |]. intros i Hi. specialize (Z i Hi). unfold ra, residual, vzero in Z. lra.
    + intros j J C. unfold put. destruct (Nat.eqb_spec j n); [reflexivity|]. apply ZB; [lia|exact C].
  - set (k := dot m rb ra / dot m ra ra). exists (put (fun j => xb j - k * xa j) k).
    assert (E : forall i, residual (S n) A b (put (fun j => xb j - k * xa j) k) i = rb i - k * ra i).
    { intros i. unfold residual at 1. rewrite PUT. change (fun j => xb j - k * xa j) with (vsub xb (fun j => k * xa j)). rewrite mapply_sub. unfold mapply at 2. rewrite dot_scale_fun_r. change (dot n (A i) xa) with (mapply n A xa i). unfold rb, ra, residual. ring. }
    assert (PE : forall v, dot m (residual (S n) A b (put (fun j => xb j - k * xa j) k)) v = dot m rb v - k * dot m ra v).
    { intros v. rewrite (dot_ext m _ (fun i => rb i - k * ra i) v v) by (intros i _; first [apply E|reflexivity]). rewrite dot_minus_fun_l, dot_scale_fun_l. reflexivity. }
    assert (P0 : forall j, (j < n)%nat -> dot m (residual (S n) A b (put (fun j => xb j - k * xa j) k)) (fun i => A i j) = 0) by (intros j J; rewrite PE, (PB j J), (PA j J); ring). split.
    + intros j J. destruct (Nat.eq_dec j n) as [->|NE]; [|apply P0; lia].
      rewrite (dot_ext m _ (residual (S n) A b (put (fun j => xb j - k * xa j) k)) (fun i => A i n) (fun i => ra i + mapply n A xa i)) by (intros i _; first [reflexivity|unfold ra, residual; ring]).
      rewrite dot_plus_fun_r, (perp_apply m n A) by exact P0. rewrite PE. unfold k. field. exact NZ.
    + intros j J C. unfold put. destruct (Nat.eqb_spec j n) as [->|NE].
      * exfalso. apply NZ. rewrite (dot_ext m ra ra ra (fun i => A i n - mapply n A xa i)) by (intros i _; reflexivity). change (fun i => A i n - mapply n A xa i) with (vsub (fun i => A i n) (mapply n A xa)).
        rewrite (dot_ext m ra ra _ (fun i => -1 * mapply n A xa i)) by (intros i Hi; first [reflexivity|unfold vsub; rewrite (C i Hi); unfold vzero; ring]). rewrite dot_scale_fun_r, (perp_apply m n A) by exact PA. ring.
      * rewrite ZB, ZA by (lia || exact C). ring.
Defined.
Theorem solvable (m n : nat) (A : mat) (b : vec) : (forall z, veq n (mapply m (mtr A) z) vzero -> dot m b z = 0) -> exists x, veq m (mapply n A x) b.
Proof.
  intros H. destruct (project m n A b) as (x & P & _). exists x. set (r := residual n A b x) in *.
  assert (Z : dot m r r = 0).
  { rewrite (dot_ext m r r r (fun i => b i + -1 * mapply n A x i)) by (intros i _; first [reflexivity|unfold r, residual; ring]). rewrite dot_plus_fun_r, dot_scale_fun_r, (perp_apply m n A) by exact P. rewrite dot_comm, H; [ring|].
    intros j J. unfold mapply, mtr, vzero. rewrite dot_comm. apply P, J. }
  apply dot_self_zero in Z. intros i Hi. specialize (Z i Hi). unfold r, residual, vzero in Z. lra.
Qed.
(** The solver made from [project] finds a solution when there is one, and gives columns of zeros the coefficient zero. *)
Definition project_solve (n : nat) (A : mat) (b : vec) : vec := proj1_sig (project n n A b).
Theorem project_solves n A b : (exists x, veq n (mapply n A x) b) -> veq n (mapply n A (project_solve n A b)) b.
Proof.
  intros (x & X). unfold project_solve. destruct (project n n A b) as (y & P & ZY). cbn [proj1_sig]. set (r := residual n A b y) in *.
  assert (Z : dot n r r = 0).
  { rewrite (dot_ext n r r r (mapply n A (vsub x y))); [apply perp_apply; exact P | apply veq_refl |]. intros i Hi. rewrite mapply_sub, (X i Hi). reflexivity. }
  apply dot_self_zero in Z. intros i Hi. specialize (Z i Hi). unfold r, residual, vzero in Z. lra.
Qed.
Theorem project_zero n A b j : (j < n)%nat -> veq n (fun i => A i j) vzero -> project_solve n A b j = 0.
Proof. intros J C. unfold project_solve. destruct (project n n A b) as (y & PY & Z). cbn [proj1_sig]. apply Z; assumption. Qed.
