(** C102-C106: projections, hyperplanes, lines, clamped norms, angles; over the real numbers. *)
From Coq Require Import Reals List Lra Lia Bool.
From Verif Require Import Base MathModel TotpModel TotpVec EVecModel.
Import ListNotations.
Open Scope R_scope.

(** ** Vector algebra *)
Lemma dot_add_r n w u v : dot n w (vadd u v) = dot n w u + dot n w v.
Proof. unfold vadd. induction n; cbn [dot]; [ring|]. rewrite IHn. ring. Qed.
Lemma dot_sub_r n w u v : dot n w (vsub u v) = dot n w u - dot n w v.
Proof. unfold vsub. induction n; cbn [dot]; [ring|]. rewrite IHn. ring. Qed.
Lemma dot_scale_r n k w u : dot n w (vscale k u) = k * dot n w u.
Proof. unfold vscale. induction n; cbn [dot]; [ring|]. rewrite IHn. ring. Qed.
Lemma dot_zero_r n w : dot n w vzero = 0.
Proof. unfold vzero. induction n; cbn [dot]; [ring|]. rewrite IHn. ring. Qed.
Lemma dot_add_l n w u v : dot n (vadd u v) w = dot n u w + dot n v w.
Proof. rewrite !(dot_comm n _ w). apply dot_add_r. Qed.
Lemma dot_sub_l n w u v : dot n (vsub u v) w = dot n u w - dot n v w.
Proof. rewrite !(dot_comm n _ w). apply dot_sub_r. Qed.
Lemma dot_scale_l n k w u : dot n (vscale k u) w = k * dot n u w.
Proof. rewrite !(dot_comm n _ w). apply dot_scale_r. Qed.
Lemma dot_zero_l n w : dot n vzero w = 0.
Proof. rewrite dot_comm. apply dot_zero_r. Qed.
Ltac dots := repeat (rewrite ?dot_add_l, ?dot_add_r, ?dot_sub_l, ?dot_sub_r, ?dot_scale_l, ?dot_scale_r, ?dot_zero_l, ?dot_zero_r).
Lemma sq_le a b : 0 <= b -> a * a <= b * b -> a <= b.
Proof. intros P H. apply Rsqr_incr_0_var; [exact H | exact P]. Qed.
Lemma norm_le n u v : dot n u u <= dot n v v -> norm n u <= norm n v.
Proof. intros H. unfold norm. apply sqrt_le_1_alt. exact H. Qed.
Lemma norm_lt n u v : dot n u u < dot n v v -> norm n u < norm n v.
Proof. intros H. unfold norm. apply sqrt_lt_1_alt. split; [apply dot_self_nonneg | exact H]. Qed.
Lemma dot_zero_vec n b v : dot n b b <= 0 -> dot n b v = 0.
Proof.
  intros H. assert (Z : dot n b b = 0) by (pose proof (dot_self_nonneg n b); lra). apply dot_self_zero in Z.
  rewrite (dot_ext n b vzero v v Z (veq_refl n v)). apply dot_zero_l.
Qed.

(** ** C102: projection and rejection *)
Lemma proj_dot n b v : dot n b (projection n b v) = dot n b v.
Proof.
  unfold projection. destruct (Rltb 0 (dot n b b)) eqn:T; [apply Rltb_true in T | apply Rltb_false in T]; dots.
  - field. lra.
  - symmetry. apply dot_zero_vec. exact T.
Qed.
Lemma proj_scale n b v : exists k, projection n b v = vscale k b \/ (projection n b v = vzero /\ dot n b b <= 0).
Proof.
  unfold projection. destruct (Rltb 0 (dot n b b)) eqn:T; [apply Rltb_true in T | apply Rltb_false in T].
  - eexists; left; reflexivity.
  - exists 0; right; split; [reflexivity | exact T].
Qed.
Lemma proj_multiple n b v : exists k, veq n (projection n b v) (vscale k b).
Proof.
  destruct (proj_scale n b v) as [k [E|[E Z]]]; exists k; rewrite E; [apply veq_refl|]. intros i Hi. assert (D : dot n b b = 0) by (pose proof (dot_self_nonneg n b); lra).
  apply dot_self_zero in D. unfold vscale. rewrite (D i Hi). unfold vzero. ring.
Qed.
(** The part along the base and the part across it: they add up to the vector, the first is a multiple of the base and the only one for which the
    rest is perpendicular to the base; it is the multiple of the base nearest to the vector. *)
Theorem C102_projection n b v : let p := projection n b v in let r := rejection n b v in
  (exists k, veq n p (vscale k b)) /\ dot n b r = 0 /\ veq n (vadd p r) v /\
  (forall k, dot n b (vsub v (vscale k b)) = 0 -> veq n p (vscale k b)) /\
  (forall k, norm n (vsub v p) <= norm n (vsub v (vscale k b))) /\
  (forall c, c <> 0 -> veq n (projection n (vscale c b) v) p) /\
  dot n v v = dot n p p + dot n r r.
Proof.
  cbv zeta. pose proof (proj_dot n b v) as D. destruct (proj_multiple n b v) as [k K].
  assert (P : dot n b (rejection n b v) = 0) by (unfold rejection; dots; lra).
  assert (PP : forall x, (exists c, veq n x (vscale c b)) -> dot n x (rejection n b v) = 0).
  { intros x [c C]. rewrite (dot_ext n x (vscale c b) _ _ C (veq_refl _ _)). dots. rewrite P. ring. }
  split; [exists k; exact K|]. split; [exact P|]. split; [intros i _; unfold vadd, rejection, vsub; ring|]. split; [|split; [|split]].
  - intros c C. dots. revert C. dots. intros C. apply (veq_trans n _ (vscale k b)); [exact K|].
    rewrite (dot_ext n b b _ _ (veq_refl _ _) K) in D. revert D. dots. intros D.
    assert (E : (k - c) * dot n b b = 0) by lra. apply Rmult_integral in E. destruct E as [E|E].
    + replace c with k by lra. apply veq_refl.
    + apply dot_self_zero in E. intros i Hi. unfold vscale. rewrite (E i Hi). unfold vzero. ring.
  - intros c. apply norm_le. fold (rejection n b v). set (r := rejection n b v) in *.
    set (d := vsub (projection n b v) (vscale c b)).
    assert (E : veq n (vsub v (vscale c b)) (vadd r d)) by (intros i _; unfold r, d, rejection, vsub, vadd; ring).
    rewrite (dot_ext n _ _ _ _ E E). assert (O : dot n d r = 0).
    { apply PP. exists (k - c). intros i Hi. unfold d, vsub. rewrite (K i Hi). unfold vscale. ring. }
    dots. rewrite (dot_comm n r d), O. pose proof (dot_self_nonneg n d). lra.
  - intros c C. unfold projection. assert (Q : 0 < c * c) by (pose proof (Rsqr_pos_lt c C) as Q; exact Q). dots.
    destruct (Rltb 0 (dot n b b)) eqn:T; [apply Rltb_true in T | apply Rltb_false in T].
    + assert (X : 0 < c * (c * dot n b b)) by (rewrite <- Rmult_assoc; apply Rmult_lt_0_compat; assumption). rewrite (proj2 (Rltb_true _ _) X). intros i _. unfold vscale. field. split; [lra | exact C].
    + assert (Z : dot n b b = 0) by (pose proof (dot_self_nonneg n b); lra). rewrite Z. destruct (Rltb 0 (c * (c * 0))) eqn:T'; [apply Rltb_true in T'; lra | apply veq_refl].
  - assert (E : veq n v (vadd (projection n b v) (rejection n b v))) by (intros i _; unfold vadd, rejection, vsub; ring).
    rewrite (dot_ext n _ _ _ _ E E). assert (O : dot n (projection n b v) (rejection n b v) = 0) by (apply PP; exists k; exact K).
    dots. rewrite (dot_comm n (rejection n b v) (projection n b v)), O. ring.
Qed.
Print Assumptions C102_projection.

(** *** Projection to a plane *)
Ltac d3 := unfold dot, cross, vadd, vsub, vscale, vzero, vneg in *.
Lemma cross_dots u v : dot 3 (cross u v) u = 0 /\ dot 3 (cross u v) v = 0 /\ dot 3 (cross u v) (cross u v) = dot 3 u u * dot 3 v v - dot 3 u v * dot 3 u v.
Proof. d3. repeat split; ring. Qed.
Lemma span_of_perp u v r : dot 3 (cross u v) r = 0 -> let g := dot 3 (cross u v) (cross u v) in
  veq 3 (vscale g r) (vadd (vscale (dot 3 r u * dot 3 v v - dot 3 r v * dot 3 u v) u) (vscale (dot 3 r v * dot 3 u u - dot 3 r u * dot 3 u v) v)).
Proof.
  intros H. cbv zeta. assert (E : forall i, (i < 3)%nat -> vscale (dot 3 (cross u v) (cross u v)) r i = 
    vadd (vscale (dot 3 r u * dot 3 v v - dot 3 r v * dot 3 u v) u) (vscale (dot 3 r v * dot 3 u u - dot 3 r u * dot 3 u v) v) i + cross u v i * dot 3 (cross u v) r).
  { intros i Hi. destruct i as [|[|[|i]]]; [| | |lia]; d3; ring. }
  intros i Hi. rewrite (E i Hi), H. ring.
Qed.
Lemma norm_dot_normalized n u v : 0 < norm n u -> 0 < norm n v -> dot n (normalized n u) (normalized n v) = dot n u v / (norm n u * norm n v).
Proof.
  intros U V. rewrite !normalized_pos by assumption.
  rewrite (dot_ext n _ (vscale (/ norm n u) u) _ (vscale (/ norm n v) v)) by (intros i _; unfold vscale, Rdiv; ring). dots. field. split; lra.
Qed.
(** Two vectors are parallel up to the tolerance of the code. *)
Definition nearly_parallel (p1 p2 : vec) : Prop := 1 - Rabs (dot 3 p1 p2) / (norm 3 p1 * norm 3 p2) <= 1 / 10 ^ 10 * (Rabs (dot 3 p1 p2) / (norm 3 p1 * norm 3 p2)).
Lemma cos_bound n u v : 0 < norm n u -> 0 < norm n v -> 0 <= Rabs (dot n u v) / (norm n u * norm n v) <= 1.
Proof.
  intros U V. assert (P : 0 < norm n u * norm n v) by (apply Rmult_lt_0_compat; assumption). split; [apply div_nonneg; [apply Rabs_pos | exact P]|].
  apply (Rmult_le_reg_r (norm n u * norm n v)); [exact P|]. unfold Rdiv. rewrite Rmult_assoc, Rinv_l by lra. rewrite Rmult_1_l, Rmult_1_r. apply cauchy.
Qed.
Lemma plane_check p1 p2 : 0 < norm 3 p1 -> 0 < norm 3 p2 -> (is_approx (Rabs (dot 3 (normalized 3 p1) (normalized 3 p2))) 1 (1 / 10 ^ 10) = true <-> nearly_parallel p1 p2).
Proof.
  intros U V. rewrite norm_dot_normalized by assumption. assert (P : 0 < norm 3 p1 * norm 3 p2) by (apply Rmult_lt_0_compat; assumption).
  unfold Rdiv at 1. rewrite Rabs_mult, (Rabs_right (/ (norm 3 p1 * norm 3 p2))) by (apply Rle_ge; left; apply Rinv_0_lt_compat; exact P).
  fold (Rabs (dot 3 p1 p2) / (norm 3 p1 * norm 3 p2)). unfold nearly_parallel. pose proof (cos_bound 3 p1 p2 U V) as B. set (c := Rabs (dot 3 p1 p2) / (norm 3 p1 * norm 3 p2)) in *.
  unfold is_approx, close_enough. rewrite Rleb_true. rewrite Rabs_R1, (Rabs_right c), Rmin_left, (Rabs_right (1 - c)) by lra. rewrite Rabs_right; [reflexivity|].
  apply Rle_ge, Rmult_le_pos; [|lra]. apply div_nonneg; [lra | apply pow_lt; lra].
Qed.
Theorem C102_plane_partial p1 p2 v : 0 < norm 3 p1 -> 0 < norm 3 p2 ->
  (nearly_parallel p1 p2 -> plane_projection p1 p2 v = Throw InvalidArgument) /\
  (~ nearly_parallel p1 p2 -> exists r, plane_projection p1 p2 v = Ok r /\
     (exists a b, veq 3 r (vadd (vscale a p1) (vscale b p2))) /\ dot 3 p1 (vsub v r) = 0 /\ dot 3 p2 (vsub v r) = 0 /\
     forall a b, norm 3 (vsub v r) <= norm 3 (vsub v (vadd (vscale a p1) (vscale b p2)))).
Proof.
  intros U V. pose proof (plane_check p1 p2 U V) as C. unfold plane_projection.
  destruct (is_approx (Rabs (dot 3 (normalized 3 p1) (normalized 3 p2))) 1 (1 / 10 ^ 10)) eqn:T.
  - split; [reflexivity|]. intros H. exfalso. apply H, C. reflexivity.
  - split; [intros H; apply C in H; discriminate|]. intros NP. eexists. split; [reflexivity|].
    set (u1 := normalized 3 p1). set (u2 := normalized 3 p2). set (n := cross u1 u2). set (r := rejection 3 n v).
    assert (E1 : forall x, dot 3 u1 x = dot 3 p1 x / norm 3 p1).
    { intros x. unfold u1. rewrite normalized_pos by exact U. rewrite (dot_ext 3 _ (vscale (/ norm 3 p1) p1) _ x) by (try apply veq_refl; intros i _; unfold vscale, Rdiv; ring). dots. field. lra. }
    assert (E2 : forall x, dot 3 u2 x = dot 3 p2 x / norm 3 p2).
    { intros x. unfold u2. rewrite normalized_pos by exact V. rewrite (dot_ext 3 _ (vscale (/ norm 3 p2) p2) _ x) by (try apply veq_refl; intros i _; unfold vscale, Rdiv; ring). dots. field. lra. }
    assert (N1 : dot 3 u1 u1 = 1). { rewrite <- norm_sq. unfold u1. rewrite normalized_unit by exact U. ring. }
    assert (N2 : dot 3 u2 u2 = 1). { rewrite <- norm_sq. unfold u2. rewrite normalized_unit by exact V. ring. }
    destruct (cross_dots u1 u2) as (Q1 & Q2 & Q3). fold n in Q1, Q2, Q3. rewrite N1, N2 in Q3.
    assert (G : dot 3 n n <> 0).
    { intros Z. apply NP. apply C. rewrite Z in Q3. assert (Sq : dot 3 u1 u2 * dot 3 u1 u2 = 1) by lra. fold u1 u2 in T.
      assert (A : Rabs (dot 3 u1 u2) = 1). { assert (S : Rsqr (Rabs (dot 3 u1 u2)) = Rsqr 1) by (rewrite <- Rsqr_abs; unfold Rsqr; lra). apply Rsqr_inj in S; [exact S | apply Rabs_pos | lra]. }
      rewrite A in T. unfold is_approx, close_enough in T. apply Rleb_false in T. replace (1 - 1) with 0 in T by ring. rewrite Rabs_R0 in T. pose proof (Rabs_pos (1 / 10 ^ 10 * Rmin (Rabs 1) (Rabs 1))). lra. }
    pose proof (C102_projection 3 n v) as (_ & Pn & _). cbv zeta in Pn. fold r in Pn.
    destruct (proj_multiple 3 n v) as [k K].
    assert (D : veq 3 (vsub v r) (vscale k n)). { intros i Hi. unfold vsub, r, rejection, vsub. rewrite (K i Hi). ring. }
    assert (O1 : dot 3 p1 (vsub v r) = 0).
    { rewrite (dot_ext 3 p1 p1 _ _ (veq_refl _ _) D). dots. pose proof (E1 n) as X. rewrite (dot_comm 3 n u1) in Q1. rewrite Q1 in X. assert (Y : dot 3 p1 n = 0) by (apply (Rmult_eq_reg_r (/ norm 3 p1)); [unfold Rdiv in X; lra | apply Rinv_neq_0_compat; lra]). rewrite Y. ring. }
    assert (O2 : dot 3 p2 (vsub v r) = 0).
    { rewrite (dot_ext 3 p2 p2 _ _ (veq_refl _ _) D). dots. pose proof (E2 n) as X. rewrite (dot_comm 3 n u2) in Q2. rewrite Q2 in X. assert (Y : dot 3 p2 n = 0) by (apply (Rmult_eq_reg_r (/ norm 3 p2)); [unfold Rdiv in X; lra | apply Rinv_neq_0_compat; lra]). rewrite Y. ring. }
    assert (Sp : exists a b, veq 3 r (vadd (vscale a p1) (vscale b p2))).
    { pose proof (span_of_perp u1 u2 r Pn) as S. cbv zeta in S. fold n in S. set (ca := dot 3 r u1 * dot 3 u2 u2 - dot 3 r u2 * dot 3 u1 u2) in *. set (cb := dot 3 r u2 * dot 3 u1 u1 - dot 3 r u1 * dot 3 u1 u2) in *.
      exists (ca / dot 3 n n / norm 3 p1), (cb / dot 3 n n / norm 3 p2). intros i Hi. specialize (S i Hi). unfold vadd, vscale in *. unfold u1, u2 in S. rewrite !normalized_pos in S by assumption.
      apply (Rmult_eq_reg_l (dot 3 n n)); [|exact G]. fold u1 u2 in S. rewrite S. field. repeat split; try lra; exact G. }
    split; [exact Sp|]. split; [exact O1|]. split; [exact O2|]. intros a b. apply norm_le.
    destruct Sp as (a0 & b0 & Sp). set (d := vadd (vscale (a0 - a) p1) (vscale (b0 - b) p2)).
    assert (E : veq 3 (vsub v (vadd (vscale a p1) (vscale b p2))) (vadd (vsub v r) d)).
    { intros i Hi. unfold vadd, vsub at 1 2. rewrite (Sp i Hi). unfold d, vadd, vscale. ring. }
    rewrite (dot_ext 3 _ _ _ _ E E). set (w := vsub v r) in *. assert (O : dot 3 d w = 0) by (unfold d; dots; rewrite O1, O2; ring).
    rewrite dot_add_l, !dot_add_r, (dot_comm 3 w d), O. pose proof (dot_self_nonneg 3 d). lra.
Qed.
Print Assumptions C102_plane_partial.
(** A zero vector spans no plane with another one, and no exception is thrown. *)
Theorem C102_plane_zero_refuted : exists p1 p2 v r, veq 3 p1 vzero /\ plane_projection p1 p2 v = Ok r /\ r = v /\
  ~ exists a b, veq 3 r (vadd (vscale a p1) (vscale b p2)).
Proof.
  exists vzero, (basis 0), (basis 1). eexists. split; [apply veq_refl|].
  assert (N : normalized 3 vzero = vzero) by (unfold normalized; rewrite dot_zero_l; destruct (Rltb 0 0) eqn:T; [apply Rltb_true in T; lra | reflexivity]).
  unfold plane_projection. rewrite N, dot_zero_l, Rabs_R0. unfold is_approx, close_enough.
  destruct (Rleb (Rabs (1 - 0)) (Rabs (1 / 10 ^ 10 * Rmin (Rabs 0) (Rabs 1)))) eqn:T.
  { exfalso. apply Rleb_true in T. rewrite Rabs_R0, Rabs_R1, Rmin_left, Rmult_0_r, Rabs_R0 in T by lra. replace (1 - 0) with 1 in T by ring. rewrite Rabs_R1 in T. lra. }
  split; [reflexivity|]. split.
  - unfold rejection, projection. assert (Z : dot 3 (cross vzero (normalized 3 (basis 0))) (cross vzero (normalized 3 (basis 0))) = 0) by (unfold dot, cross, vzero; ring).
    rewrite Z. destruct (Rltb 0 0) eqn:T'; [apply Rltb_true in T'; lra|]. unfold vsub, vzero. apply FunctionalExtensionality.functional_extensionality. intros i. ring.
  - intros (a & b & H). specialize (H 1%nat ltac:(lia)). unfold rejection, projection in H.
    assert (Z : dot 3 (cross vzero (normalized 3 (basis 0))) (cross vzero (normalized 3 (basis 0))) = 0) by (unfold dot, cross, vzero; ring).
    rewrite Z in H. destruct (Rltb 0 0) eqn:T'; [apply Rltb_true in T'; lra|]. unfold vsub, vadd, vscale, vzero, basis in H. cbn in H. lra.
Qed.
Print Assumptions C102_plane_zero_refuted.
Example plane_case : 0 < norm 3 (basis 0) /\ 0 < norm 3 (basis 1) /\ ~ nearly_parallel (basis 0) (basis 1).
Proof.
  assert (N : norm 3 (basis 0) = 1 /\ norm 3 (basis 1) = 1). { unfold norm, dot, basis. cbn. split; match goal with |- sqrt ?x = 1 => replace x with 1 by ring end; apply sqrt_1. }
  destruct N as [N0 N1]. rewrite N0, N1. split; [lra|]. split; [lra|]. unfold nearly_parallel. rewrite N0, N1. replace (dot 3 (basis 0) (basis 1)) with 0 by (unfold dot, basis; cbn; ring). rewrite Rabs_R0. lra.
Qed.

(** ** C103: hyperplanes *)
(** The points of a plane. *)
Definition on_plane (n : nat) (h : hyperplane) (x : vec) : Prop := dot n (vsub x (h_origin h)) (h_normal h) = 0.
Theorem C103_distance n h p : let x := project_point n h p in
  on_plane n h x /\ plane_distance n h p = norm n (vsub p x) /\ (forall y, on_plane n h y -> plane_distance n h p <= norm n (vsub p y)) /\
  (on_plane n h p -> veq n x p) /\
  (0 < norm n (h_normal h) -> plane_distance n h p = Rabs (raw_dot n h p) / norm n (h_normal h)) /\
  plane_distance2 n h p = plane_distance n h p * plane_distance n h p /\ (raw_dot n h p = 0 <-> on_plane n h p).
Proof.
  cbv zeta. destruct h as [o m]. unfold on_plane, plane_distance, plane_distance2, project_point, raw_dot. cbn [h_origin h_normal].
  set (d := vsub p o). pose proof (C102_projection n m d) as (_ & Perp & _ & _ & _ & _ & Py). cbv zeta in Perp, Py.
  assert (On : forall r, dot n (vsub (vadd o r) o) m = dot n m r) by (intros r; rewrite (dot_comm n m r); apply dot_ext; [intros i _; unfold vsub, vadd; ring | apply veq_refl]).
  assert (Df : veq n (vsub p (vadd o (rejection n m d))) (projection n m d)) by (intros i _; unfold d, rejection, vsub, vadd; ring).
  destruct (proj_multiple n m d) as [k K].
  split; [rewrite On; exact Perp|]. split; [apply norm_ext; intros i Hi; symmetry; apply Df; exact Hi|]. split.
  - intros y Y. apply norm_le. set (e := vsub (vadd o (rejection n m d)) y).
    assert (E : veq n (vsub p y) (vadd (projection n m d) e)) by (intros i _; unfold e, d, rejection, vsub, vadd; ring).
    rewrite (dot_ext n _ _ _ _ E E). assert (O : dot n (projection n m d) e = 0).
    { rewrite (dot_ext n _ (vscale k m) e e K (veq_refl _ _)). dots. assert (Z : dot n m e = 0); [|rewrite Z; ring].
      rewrite (dot_ext n m m e (vsub (rejection n m d) (vsub y o))) by (try apply veq_refl; intros i _; unfold e, vsub, vadd; ring).
      rewrite dot_sub_r, Perp, (dot_comm n m), Y. ring. }
    rewrite dot_add_l, !dot_add_r, (dot_comm n e), O. pose proof (dot_self_nonneg n e). lra.
  - split; [|split; [|split]].
    + intros H. fold d in H. intros i Hi. assert (Z : veq n (projection n m d) vzero).
      { unfold projection. rewrite (dot_comm n m d), H. destruct (Rltb 0 (dot n m m)); [|apply veq_refl]. intros j _. unfold vscale, vzero, Rdiv. ring. }
      unfold vadd, rejection, vsub at 1. rewrite (Z i Hi). unfold d, vsub, vzero. ring.
    + intros P. assert (P2 : 0 < dot n m m) by (rewrite <- norm_sq; apply Rmult_lt_0_compat; exact P). unfold projection. rewrite (proj2 (Rltb_true _ _) P2).
      unfold vscale. rewrite norm_scale. unfold Rdiv at 1. rewrite Rabs_mult, (Rabs_right (/ dot n m m)) by (apply Rle_ge; left; apply Rinv_0_lt_compat; exact P2).
      rewrite <- norm_sq. rewrite (dot_comm n m d). field. lra.
    + rewrite norm_sq. reflexivity.
    + reflexivity.
Qed.
(** Vectors: the part in the plane and the part along the normal; the normed dot product is the cosine to the normal, up to its length. *)
Theorem C103_vectors n h v : dot n (h_normal h) (project_vector n h v) = 0 /\ veq n (vadd (project_vector n h v) (reject_vector n h v)) v /\
  (forall w, dot n (h_normal h) w = 0 -> norm n (vsub v (project_vector n h v)) <= norm n (vsub v w)) /\
  (/ 2 ^ 52 < norm n (vsub v (h_origin h)) -> normed_dot n h v = raw_dot n h v / norm n (vsub v (h_origin h))) /\
  Rabs (normed_dot n h v) <= norm n (h_normal h).
Proof.
  change (/ 2 ^ 52) with eps. destruct h as [o m]. unfold project_vector, reject_vector, normed_dot, raw_dot. cbn [h_origin h_normal].
  pose proof (C102_projection n m v) as (_ & Perp & Sum & _). cbv zeta in Perp, Sum. assert (Ep : 0 < eps < 1).
  { unfold eps. split; [apply Rinv_0_lt_compat, pow_lt; lra|]. replace 1 with (/ 1) by field. apply Rinv_lt_contravar; [rewrite Rmult_1_l; apply pow_lt; lra | lra]. }
  assert (Nd : eps < norm n (vsub v o) -> dot n (safe_normal n (vsub v o)) m = dot n (vsub v o) m / norm n (vsub v o)).
  { intros L. unfold safe_normal. rewrite (proj2 (Rltb_true _ _) L). rewrite (dot_ext n _ (vscale (/ norm n (vsub v o)) (vsub v o)) m m) by (try apply veq_refl; intros i _; unfold vscale, Rdiv; ring). rewrite dot_scale_l. field. lra. }
  split; [exact Perp|]. split; [intros i Hi; rewrite <- (Sum i Hi); unfold vadd; ring|]. split; [|split; [exact Nd|]].
  - intros w W. apply norm_le. destruct (proj_multiple n m v) as [k K]. set (e := vsub (rejection n m v) w).
    assert (E : veq n (vsub v w) (vadd (projection n m v) e)) by (intros i _; unfold e, rejection, vsub, vadd; ring).
    assert (F : veq n (vsub v (rejection n m v)) (projection n m v)) by (intros i _; unfold rejection, vsub; ring).
    rewrite (dot_ext n _ _ _ _ E E), (dot_ext n _ _ _ _ F F). assert (O : dot n (projection n m v) e = 0).
    { rewrite (dot_ext n _ (vscale k m) e e K (veq_refl _ _)). unfold e. dots. rewrite Perp, W. ring. }
    rewrite dot_add_l, !dot_add_r, (dot_comm n e), O. pose proof (dot_self_nonneg n e). lra.
  - assert (U : norm n (safe_normal n (vsub v o)) <= 1).
    { unfold safe_normal. destruct (Rltb eps (norm n (vsub v o))) eqn:T; [apply Rltb_true in T | apply Rltb_false in T]; [|lra].
      rewrite (norm_ext n _ (fun i => / norm n (vsub v o) * vsub v o i)) by (intros i _; unfold Rdiv; ring). rewrite norm_scale.
      rewrite Rabs_right by (apply Rle_ge; left; apply Rinv_0_lt_compat; lra). rewrite Rinv_l by lra. lra. }
    pose proof (cauchy n (safe_normal n (vsub v o)) m) as C. pose proof (norm_nonneg n m). nra.
Qed.
Print Assumptions C103_distance. Print Assumptions C103_vectors.
Example plane_distance_case : plane_distance 2 (mkH vzero (basis 1)) (vadd (basis 0) (vscale 3 (basis 1))) = 3.
Proof.
  unfold plane_distance, projection. cbn [h_normal h_origin]. replace (dot 2 (basis 1) (basis 1)) with 1 by (unfold dot, basis; cbn; ring).
  rewrite (proj2 (Rltb_true 0 1) Rlt_0_1). apply norm_unique; [lra|]. unfold dot, vscale, vsub, vadd, vzero, basis. cbn. field.
Qed.

(** ** C104: the distance to a line *)
Theorem C104_line dbg point direction x : exists d s, distance_to_line dbg point direction x = Ok (d, s) /\
  (0 < norm 3 direction ->
     d = norm 3 (vsub x (vadd point (vscale (s / norm 3 direction) direction))) /\ forall t, d <= norm 3 (vsub x (vadd point (vscale t direction)))) /\
  (norm 3 direction = 0 -> d = norm 3 (vsub x point) /\ s = 0).
Proof.
  set (u := normalized 3 direction). set (delta := vsub x point). set (along := dot 3 u delta). set (d := norm 3 (vsub (vadd point (fun i => u i * along)) x)).
  assert (Un : dot 3 u u = 1 \/ veq 3 u vzero).
  { destruct (norm_nonneg 3 direction) as [P|P].
    - left. rewrite <- norm_sq. unfold u. rewrite normalized_unit by exact P. ring.
    - right. symmetry in P. apply norm_zero in P. unfold u, normalized. destruct (Rltb 0 (dot 3 direction direction)) eqn:T; [|exact P].
      exfalso. apply Rltb_true in T. apply dot_self_zero in P. lra. }
  assert (Dd : veq 3 (vsub (vadd point (fun i => u i * along)) x) (vsub (vscale along u) delta)) by (intros i _; unfold vsub, vadd, vscale, delta, vsub; ring).
  assert (D2 : d * d = dot 3 delta delta - along * along).
  { unfold d. rewrite norm_sq, (dot_ext 3 _ _ _ _ Dd Dd). dots. rewrite (dot_comm 3 delta u). fold along. destruct Un as [E|E]; [rewrite E; ring|].
    assert (Z : along = 0) by (unfold along; rewrite (dot_ext 3 u vzero delta delta E (veq_refl _ _)); apply dot_zero_l). rewrite Z. ring. }
  exists d, along. split; [|split].
  - unfold distance_to_line. fold u delta along d. rewrite D2. replace (dot 3 delta delta - along * along + along * along) with (dot 3 delta delta) by ring.
    unfold is_approx, close_enough. replace (dot 3 delta delta - dot 3 delta delta) with 0 by ring. rewrite Rabs_R0. rewrite (proj2 (Rleb_true _ _) (Rabs_pos _)). destruct dbg; reflexivity.
  - intros P. assert (N1 : dot 3 u u = 1) by (rewrite <- norm_sq; unfold u; rewrite normalized_unit by exact P; ring).
    assert (Eu : veq 3 u (vscale (/ norm 3 direction) direction)) by (intros i _; unfold u; rewrite normalized_pos by exact P; unfold vscale, Rdiv; ring).
    split.
    + unfold d. rewrite norm_sub_sym. apply norm_ext. intros i Hi. unfold vsub, vadd. rewrite (Eu i Hi). unfold vscale, Rdiv. ring.
    + intros t. unfold d. apply norm_le. fold d. rewrite (dot_ext 3 _ _ _ _ Dd Dd).
      assert (E : veq 3 (vsub x (vadd point (vscale t direction))) (vsub delta (vscale (t * norm 3 direction) u))).
      { intros i Hi. unfold vsub, vadd, vscale, delta, vsub. rewrite (Eu i Hi). unfold vscale. field. lra. }
      rewrite (dot_ext 3 _ _ _ _ E E). dots. rewrite (dot_comm 3 delta u), N1. fold along. set (k := t * norm 3 direction).
      pose proof (Rle_0_sqr (k - along)) as Q. unfold Rsqr in Q. lra.
  - intros Z. apply norm_zero in Z. assert (Zu : veq 3 u vzero).
    { destruct Un as [E|E]; [|exact E]. exfalso. unfold u, normalized in E. destruct (Rltb 0 (dot 3 direction direction)) eqn:T; [apply Rltb_true in T; apply dot_self_zero in Z; lra|]. apply dot_self_zero in Z. lra. }
    assert (Za : along = 0) by (unfold along; rewrite (dot_ext 3 u vzero delta delta Zu (veq_refl _ _)); apply dot_zero_l).
    split; [|exact Za]. unfold d. rewrite Za, norm_sub_sym. apply norm_ext. intros i Hi. unfold delta, vsub, vadd. ring.
Qed.
Print Assumptions C104_line.

(** ** C105: limited and unit norms *)
Theorem C105_clamp dbg n v m : 0 < m -> exists r, clamp_norm dbg n v m = Ok r /\ norm n r <= m /\ (norm n v <= m -> r = v) /\
  (exists k, 0 < k <= 1 /\ veq n r (vscale k v)) /\ (forall x, norm n x <= m -> norm n (vsub v r) <= norm n (vsub v x)).
Proof.
  intros M. unfold clamp_norm. rewrite (proj2 (Rltb_true _ _) M). destruct (Rltb m (norm n v)) eqn:T; [apply Rltb_true in T | apply Rltb_false in T].
  - eexists. split; [destruct dbg; reflexivity|]. assert (K : 0 < m / norm n v <= 1).
    { split; [apply Rdiv_lt_0_compat; lra|]. apply (Rmult_le_reg_r (norm n v)); [lra|]. unfold Rdiv. rewrite Rmult_assoc, Rinv_l; lra. }
    set (k := m / norm n v) in *. assert (E : veq n (fun i => v i * k) (vscale k v)) by (intros i _; unfold vscale; ring).
    assert (Nr : norm n (fun i => v i * k) = m) by (rewrite (norm_ext n _ _ E); unfold vscale; rewrite norm_scale, Rabs_right by lra; unfold k; field; lra).
    split; [lra|]. split; [intros; lra|]. split; [exists k; split; [exact K | exact E]|].
    intros x X. assert (D : norm n (vsub v (fun i => v i * k)) = norm n v - m).
    { rewrite (norm_ext n _ (fun i => (1 - k) * v i)) by (intros i _; unfold vsub; ring). rewrite norm_scale, Rabs_right by lra. unfold k. field. lra. }
    rewrite D. pose proof (norm_triangle n (vsub v x) x) as Tr. rewrite (norm_ext n (vadd (vsub v x) x) v) in Tr by (intros i _; unfold vadd, vsub; ring). lra.
  - exists v. split; [destruct dbg; reflexivity|]. split; [exact T|]. split; [reflexivity|]. split; [exists 1; split; [lra | intros i _; unfold vscale; ring]|].
    intros x _. rewrite (norm_ext n (vsub v v) vzero) by (intros i _; unfold vsub, vzero; ring). replace (norm n vzero) with 0 by (symmetry; apply norm_zero; apply veq_refl). apply norm_nonneg.
Qed.
Theorem C105_bad_limit n v m : m <= 0 -> clamp_norm true n v m = AssertFail.
Proof. intros M. unfold clamp_norm. destruct (Rltb 0 m) eqn:T; [apply Rltb_true in T; lra | reflexivity]. Qed.
Theorem C105_safe_normal n v : (/ 2 ^ 52 < norm n v -> norm n (safe_normal n v) = 1 /\ exists k, 0 < k /\ veq n (safe_normal n v) (vscale k v)) /\
  (norm n v <= / 2 ^ 52 -> safe_normal n v = v).
Proof.
  change (/ 2 ^ 52) with eps.
  unfold safe_normal. split; intros H.
  - rewrite (proj2 (Rltb_true _ _) H). assert (P : 0 < norm n v) by (assert (0 < eps) by (unfold eps; apply Rinv_0_lt_compat, pow_lt; lra); lra). assert (I : 0 < / norm n v) by (apply Rinv_0_lt_compat; exact P).
    assert (E : veq n (fun i => v i / norm n v) (vscale (/ norm n v) v)) by (intros i _; unfold vscale, Rdiv; ring).
    split; [rewrite (norm_ext n _ _ E); unfold vscale; rewrite norm_scale, Rabs_right by lra; field; lra|]. exists (/ norm n v). split; [exact I | exact E].
  - destruct (Rltb eps (norm n v)) eqn:T; [apply Rltb_true in T; lra | reflexivity].
Qed.
Print Assumptions C105_clamp. Print Assumptions C105_bad_limit. Print Assumptions C105_safe_normal.
