(** C106, C107, C110: angles, weighted products, averages, cones; over the real numbers. *)
From Coq Require Import Reals List Lra Lia Bool.
From Verif Require Import Base MathModel MathProps TotpModel TotpVec EVecModel EVecProps.
Import ListNotations.
Open Scope R_scope.

(** ** C106: angles *)
Lemma trig2 t : sin t * sin t + cos t * cos t = 1.
Proof. pose proof (sin2_cos2 t) as H. unfold Rsqr in H. exact H. Qed.
Lemma clamp_id x : -1 <= x <= 1 -> Rmax (-1) (Rmin x 1) = x.
Proof. intros H. rewrite Rmin_left by lra. apply Rmax_right. lra. Qed.
Lemma acos_m1 : acos (-1) = PI.
Proof. replace (-1) with (- (1)) by lra. rewrite acos_opp, acos_1. ring. Qed.
Lemma quotient_bound x p : 0 < p -> Rabs x <= p -> -1 <= x / p <= 1.
Proof.
  intros P H. assert (A : - p <= x <= p) by (unfold Rabs in H; destruct (Rcase_abs x); lra).
  split; apply (Rmult_le_reg_r p); try exact P; unfold Rdiv; rewrite Rmult_assoc, Rinv_l by lra; lra.
Qed.
Lemma angle_formula n a b c : 0 < norm n (vsub a b) -> 0 < norm n (vsub c b) ->
  angle_points n a b c = acos (dot n (vsub a b) (vsub c b) / (norm n (vsub a b) * norm n (vsub c b))).
Proof.
  intros A C. unfold angle_points. rewrite norm_dot_normalized by assumption. rewrite clamp_id; [reflexivity|].
  apply quotient_bound; [apply Rmult_lt_0_compat; assumption | apply cauchy].
Qed.
(** cos and sin of the angle between [u] and [v]. *)
Lemma angle_cs n u v : 0 < norm n u -> 0 < norm n v -> let t := acos (dot n u v / (norm n u * norm n v)) in
  0 <= t <= PI /\ cos t * (norm n u * norm n v) = dot n u v /\ sin t * (norm n u * norm n v) = sqrt (dot n u u * dot n v v - dot n u v * dot n u v).
Proof.
  intros U V. cbv zeta. assert (P : 0 < norm n u * norm n v) by (apply Rmult_lt_0_compat; assumption).
  pose proof (quotient_bound (dot n u v) (norm n u * norm n v) P (cauchy n u v)) as B. set (t := acos (dot n u v / (norm n u * norm n v))).
  assert (R : 0 <= t <= PI) by apply acos_bound. assert (C : cos t = dot n u v / (norm n u * norm n v)) by (apply cos_acos; exact B).
  split; [exact R|]. split; [rewrite C; field; lra|]. symmetry. apply sqrt_lem_1.
  - pose proof (cauchy_sq n u v). lra.
  - apply Rmult_le_pos; [apply sin_ge_0; apply R | lra].
  - pose proof (trig2 t) as T. replace (sin t * (norm n u * norm n v) * (sin t * (norm n u * norm n v))) with ((sin t * sin t) * ((norm n u * norm n u) * (norm n v * norm n v))) by ring.
    replace (sin t * sin t) with (1 - cos t * cos t) by lra. rewrite !norm_sq, C.
    replace (1 - dot n u v / (norm n u * norm n v) * (dot n u v / (norm n u * norm n v))) with (((norm n u * norm n u) * (norm n v * norm n v) - dot n u v * dot n u v) / ((norm n u * norm n u) * (norm n v * norm n v))) by (field; split; lra).
    rewrite !norm_sq. field. rewrite <- !norm_sq. split; apply Rgt_not_eq, Rmult_lt_0_compat; assumption.
Qed.
Definition distinct (n : nat) (a b : vec) : Prop := ~ veq n a b.
Lemma distinct_norm n a b : distinct n a b <-> 0 < norm n (vsub a b).
Proof.
  rewrite norm_pos. unfold distinct. split; intros H E; apply H; intros i Hi; specialize (E i Hi); unfold vsub, vzero in *; lra.
Qed.
(** The angle at [b] between [a] and [c]: the angle whose cosine the dot product gives, from 0 to pi; it does not depend on the order of [a] and [c], the
    position or the scale; and the three angles of a triangle add up to pi. *)
Theorem C106_angle n a b c : distinct n a b -> distinct n c b -> let t := angle_points n a b c in
  0 <= t <= PI /\ dot n (vsub a b) (vsub c b) = norm n (vsub a b) * norm n (vsub c b) * cos t /\
  angle_points n c b a = t /\
  (forall d, angle_points n (vadd a d) (vadd b d) (vadd c d) = t) /\
  (forall k, 0 < k -> angle_points n (vscale k a) (vscale k b) (vscale k c) = t).
Proof.
  intros A C. apply distinct_norm in A, C. cbv zeta. rewrite !angle_formula by assumption. destruct (angle_cs n _ _ A C) as (R & Cs & _).
  split; [exact R|]. split; [symmetry; rewrite Rmult_comm; exact Cs|]. split; [rewrite (dot_comm n (vsub c b)), (Rmult_comm (norm n (vsub c b))); reflexivity|]. split.
  - intros d. assert (E1 : veq n (vsub (vadd a d) (vadd b d)) (vsub a b)) by (intros i _; unfold vsub, vadd; ring). assert (E2 : veq n (vsub (vadd c d) (vadd b d)) (vsub c b)) by (intros i _; unfold vsub, vadd; ring).
    rewrite angle_formula by (rewrite ?(norm_ext n _ _ E1), ?(norm_ext n _ _ E2); assumption). rewrite (norm_ext n _ _ E1), (norm_ext n _ _ E2), (dot_ext n _ _ _ _ E1 E2). reflexivity.
  - intros k K. assert (E1 : veq n (vsub (vscale k a) (vscale k b)) (vscale k (vsub a b))) by (intros i _; unfold vsub, vscale; ring). assert (E2 : veq n (vsub (vscale k c) (vscale k b)) (vscale k (vsub c b))) by (intros i _; unfold vsub, vscale; ring).
    assert (N : forall x, norm n (vscale k x) = k * norm n x) by (intros x; unfold vscale; rewrite norm_scale, Rabs_right by lra; reflexivity).
    rewrite angle_formula by (rewrite ?(norm_ext n _ _ E1), ?(norm_ext n _ _ E2), N; apply Rmult_lt_0_compat; assumption).
    rewrite (norm_ext n _ _ E1), (norm_ext n _ _ E2), (dot_ext n _ _ _ _ E1 E2), !N. dots. f_equal. field. lra.
Qed.
Theorem C106_triangle n a b c : distinct n a b -> distinct n b c -> distinct n c a ->
  angle_points n c a b + angle_points n a b c + angle_points n b c a = PI.
Proof.
  intros Dab Dbc Dca.
  assert (Dba : distinct n b a) by (intros E; apply Dab, veq_sym, E). assert (Dcb : distinct n c b) by (intros E; apply Dbc, veq_sym, E). assert (Dac : distinct n a c) by (intros E; apply Dca, veq_sym, E).
  apply distinct_norm in Dab, Dba, Dbc, Dcb, Dca, Dac. rewrite !angle_formula by assumption.
  destruct (angle_cs n _ _ Dca Dba) as (R1 & C1 & S1). destruct (angle_cs n _ _ Dab Dcb) as (R2 & C2 & S2). destruct (angle_cs n _ _ Dbc Dac) as (R3 & C3 & S3).
  set (al := acos (dot n (vsub c a) (vsub b a) / (norm n (vsub c a) * norm n (vsub b a)))) in *. set (be := acos (dot n (vsub a b) (vsub c b) / (norm n (vsub a b) * norm n (vsub c b)))) in *.
  set (ga := acos (dot n (vsub b c) (vsub a c) / (norm n (vsub b c) * norm n (vsub a c)))) in *.
  rewrite (norm_sub_sym n a b) in *. rewrite (norm_sub_sym n b c) in *. rewrite (norm_sub_sym n a c) in *.
  revert C1 C2 C3 S1 S2 S3. dots. rewrite !(dot_comm n b a), !(dot_comm n c a), !(dot_comm n c b).
  set (aa := dot n a a). set (bb := dot n b b). set (cc := dot n c c). set (ab := dot n a b). set (ac := dot n a c). set (bc := dot n b c). intros C1 C2 C3 S1 S2 S3.
  set (p := norm n (vsub b a)) in *. set (q := norm n (vsub c b)) in *. set (r := norm n (vsub c a)) in *.
  assert (P2 : p * p = aa + bb - 2 * ab) by (unfold p; rewrite norm_sq; dots; rewrite (dot_comm n b a); fold aa bb ab; ring).
  assert (Q2 : q * q = bb + cc - 2 * bc) by (unfold q; rewrite norm_sq; dots; rewrite (dot_comm n c b); fold bb cc bc; ring).
  assert (R2' : r * r = aa + cc - 2 * ac) by (unfold r; rewrite norm_sq; dots; rewrite (dot_comm n c a); fold aa cc ac; ring).
  match type of S1 with _ = sqrt ?x => set (W := x) in * end.
  match type of S2 with _ = sqrt ?x => replace x with W in S2 by (unfold W; ring) end.
  match type of S3 with _ = sqrt ?x => replace x with W in S3 by (unfold W; ring) end.
  assert (W0 : 0 <= W). { unfold W. pose proof (cauchy_sq n (vsub c a) (vsub b a)) as K. revert K. dots. rewrite !(dot_comm n b a), !(dot_comm n c a), !(dot_comm n c b). fold aa bb cc ab ac bc. lra. }
  assert (WW : sqrt W * sqrt W = W) by (apply sqrt_sqrt; exact W0). set (w := sqrt W) in *.
  assert (Cs : cos (al + be) = - cos ga).
  { rewrite cos_plus. apply (Rmult_eq_reg_r ((r * p) * (p * q))); [|repeat apply Rmult_integral_contrapositive_currified; lra].
    transitivity ((cos al * (r * p)) * (cos be * (p * q)) - (sin al * (r * p)) * (sin be * (p * q))); [ring|]. rewrite C1, C2, S1, S2, WW.
    transitivity (- (cos ga * (q * r)) * (p * p)); [|ring]. rewrite C3, P2. unfold W. ring. }
  assert (Sn : sin (al + be) = sin ga).
  { rewrite sin_plus. apply (Rmult_eq_reg_r ((r * p) * (p * q))); [|repeat apply Rmult_integral_contrapositive_currified; lra].
    transitivity ((sin al * (r * p)) * (cos be * (p * q)) + (cos al * (r * p)) * (sin be * (p * q))); [ring|]. rewrite C1, C2, S1, S2.
    transitivity ((sin ga * (q * r)) * (p * p)); [|ring]. rewrite S3, P2. ring. }
  assert (Z : sin (al + be + ga) = 0). { rewrite sin_plus, Cs, Sn. ring. }
  assert (Cz : cos (al + be + ga) = -1). { rewrite cos_plus, Cs, Sn. pose proof (trig2 ga). lra. }
  pose proof PI_RGT_0 as PIp. set (s := al + be + ga) in *.
  (* s in [0, 3 pi] with cos s = -1: pi or 3 pi *)
  destruct (Rlt_le_dec s (3 * PI)) as [L|L].
  - destruct (Rle_lt_dec s PI) as [L1|L1].
    + destruct L1 as [L1|L1]; [|exact L1]. exfalso. assert (0 <= s) by (unfold s; lra). pose proof (cos_decreasing_1 s PI ltac:(lra) ltac:(lra) ltac:(lra) ltac:(lra) L1) as K. rewrite cos_PI in K. lra.
    + exfalso. destruct (Rle_lt_dec s (2 * PI)) as [L2|L2].
      * pose proof (cos_increasing_1 PI s ltac:(lra) ltac:(lra) ltac:(lra) ltac:(lra) L1) as K. rewrite cos_PI in K. lra.
      * assert (E : cos s = cos (s - 2 * PI)) by (replace s with (s - 2 * PI + 2 * PI) at 1 by ring; rewrite cos_plus, cos_2PI, sin_2PI; ring).
        pose proof (cos_decreasing_1 (s - 2 * PI) PI ltac:(lra) ltac:(lra) ltac:(lra) ltac:(lra) ltac:(lra)) as K. rewrite cos_PI in K. lra.
  - exfalso. assert (al = PI /\ be = PI) as [Ea Eb] by (unfold s in L; lra). rewrite Ea, cos_PI in C1. rewrite Eb, cos_PI in C2.
    assert (0 < r * p) by (apply Rmult_lt_0_compat; assumption). assert (0 < p * q) by (apply Rmult_lt_0_compat; assumption). assert (0 < p * p) by (apply Rmult_lt_0_compat; assumption). lra.
Qed.
Print Assumptions C106_angle. Print Assumptions C106_triangle.

(** Where two of the points coincide there is no angle; a right angle is reported (with a warning). *)
Theorem C106_coincident n a b c : veq n a b -> angle_points n a b c = PI / 2 /\ angle_points n c b a = PI / 2.
Proof.
  intros E. assert (Z : norm n (vsub a b) = 0) by (apply norm_zero; intros i Hi; unfold vsub, vzero; rewrite (E i Hi); ring).
  assert (ZN : veq n (normalized n (vsub a b)) vzero). { intros i Hi. unfold normalized. pose proof (norm_sq n (vsub a b)) as Q. rewrite Z in Q. destruct (Rltb 0 (dot n (vsub a b) (vsub a b))) eqn:R; [apply Rltb_true in R; lra|]. unfold vsub, vzero. rewrite (E i Hi). ring. }
  unfold angle_points. split.
  - rewrite (dot_ext n _ vzero _ (normalized n (vsub c b)) ZN (veq_refl n _)), dot_zero_l, clamp_id by lra. apply acos_0.
  - rewrite (dot_ext n _ (normalized n (vsub c b)) _ vzero (veq_refl n _) ZN), dot_zero_r, clamp_id by lra. apply acos_0.
Qed.
Print Assumptions C106_coincident.
Lemma veq_basis : distinct 2 (basis 0) vzero.
Proof. intros E. pose proof (E O ltac:(lia)) as H. unfold basis, vzero in H. cbn in H. lra. Qed.
Example angle_case : distinct 2 (basis 0) vzero /\ distinct 2 (basis 1) vzero /\ distinct 2 (basis 0) (basis 1) /\ angle_points 2 (basis 0) vzero (basis 1) = PI / 2.
Proof.
  assert (D1 : distinct 2 (basis 1) vzero) by (intros E; pose proof (E 1%nat ltac:(lia)) as H; unfold basis, vzero in H; cbn in H; lra).
  split; [exact veq_basis|]. split; [exact D1|]. split; [intros E; pose proof (E O ltac:(lia)) as H; unfold basis in H; cbn in H; lra|].
  rewrite angle_formula by (apply distinct_norm; [exact veq_basis || exact D1]). replace (dot 2 (vsub (basis 0) vzero) (vsub (basis 1) vzero)) with 0 by (unfold dot, vsub, vzero, basis; cbn; ring).
  unfold Rdiv at 1. rewrite Rmult_0_l. apply acos_0.
Qed.

(** The weighted inner product: the sum of [w i * u i * v i]. *)
Fixpoint inner (n : nat) (u v w : vec) : R := match n with O => 0 | S k => inner k u v w + w k * (u k * v k) end.
Lemma wdot_inner n u v w : wdot n u v w = inner n u v w.
Proof. unfold wdot. induction n as [|n IH]; [reflexivity|]. cbn [dot inner]. rewrite IH. ring. Qed.
Lemma inner_sym n u v w : inner n u v w = inner n v u w.
Proof. induction n as [|n IH]; [reflexivity|]. cbn [inner]. rewrite IH. ring. Qed.
Lemma inner_dot n u v w : (forall i, (i < n)%nat -> 0 <= w i) -> inner n u v w = dot n (fun i => sqrt (w i) * u i) (fun i => sqrt (w i) * v i).
Proof.
  induction n as [|n IH]; intros W; [reflexivity|]. cbn [dot inner]. rewrite IH by (intros; apply W; lia). pose proof (sqrt_sqrt (w n) (W n ltac:(lia))) as S. set (s := sqrt (w n)) in *. rewrite <- S. ring.
Qed.
Theorem C106_weighted dbg n u v w : (forall i, (i < n)%nat -> 0 <= w i) -> 0 < inner n u u w -> 0 < inner n v v w ->
  exists t, wangle dbg n u v w = Ok t /\ wangle dbg n v u w = Ok t /\ 0 <= t <= PI /\ inner n u v w = sqrt (inner n u u w) * sqrt (inner n v v w) * cos t /\
    Rabs (inner n u v w) <= sqrt (inner n u u w) * sqrt (inner n v v w).
Proof.
  intros W U V. pose proof (sqrt_lt_R0 _ U) as U'. pose proof (sqrt_lt_R0 _ V) as V'.
  assert (P : 0 < sqrt (inner n u u w) * sqrt (inner n v v w)) by (apply Rmult_lt_0_compat; assumption).
  assert (C : Rabs (inner n u v w) <= sqrt (inner n u u w) * sqrt (inner n v v w)). { rewrite !(inner_dot n _ _ w W). apply cauchy. }
  pose proof (quotient_bound _ _ P C) as B. exists (acos (inner n u v w / (sqrt (inner n u u w) * sqrt (inner n v v w)))).
  assert (N : forall x, 0 < inner n x x w -> wnorm n x w = Some (sqrt (inner n x x w))). { intros x X. unfold wnorm. rewrite wdot_inner. destruct (Rltb (inner n x x w) 0) eqn:L; [apply Rltb_true in L; lra|reflexivity]. }
  assert (A : forall x y, 0 < inner n x x w -> 0 < inner n y y w -> -1 <= inner n x y w / (sqrt (inner n x x w) * sqrt (inner n y y w)) <= 1 -> wangle dbg n x y w = Ok (acos (inner n x y w / (sqrt (inner n x x w) * sqrt (inner n y y w))))).
  { intros x y X Y Q. unfold wangle, wcosine. rewrite (N x X), (N y Y). unfold cassert. pose proof (sqrt_lt_R0 _ X) as X'. pose proof (sqrt_lt_R0 _ Y) as Y'.
    rewrite (proj2 (Rltb_true _ _) X'), (proj2 (Rltb_true _ _) Y'). cbn [andb negb]. rewrite andb_false_r. cbn [obind]. unfold clamped_quotient.
    assert (0 < sqrt (inner n x x w) * sqrt (inner n y y w)) by (apply Rmult_lt_0_compat; assumption). destruct (Reqb _ 0) eqn:Z; [apply Reqb_true in Z; lra|]. rewrite wdot_inner, clamp_id by exact Q. reflexivity. }
  split; [apply A; assumption|]. split; [rewrite (inner_sym n u v w), (Rmult_comm (sqrt (inner n u u w))); apply A; try assumption; rewrite (inner_sym n v u w), Rmult_comm; exact B|].
  split; [apply acos_bound|]. split; [|exact C]. rewrite cos_acos by exact B. field. lra.
Qed.
Print Assumptions C106_weighted.
Lemma inner_one n u v : inner n u v (fun _ => 1) = dot n u v.
Proof. induction n as [|n IH]; [reflexivity|]. cbn [dot inner]. rewrite IH. ring. Qed.
(** With all weights 1 this is the plain angle. *)
Theorem C106_unit_weights dbg n u v : distinct n u vzero -> distinct n v vzero -> wangle dbg n u v (fun _ => 1) = Ok (angle_points n u vzero v).
Proof.
  intros U V. pose proof U as U'. pose proof V as V'. apply distinct_norm in U', V'.
  assert (E : forall x, veq n (vsub x vzero) x) by (intros x i _; unfold vsub, vzero; ring). rewrite (norm_ext n _ _ (E u)) in U'. rewrite (norm_ext n _ _ (E v)) in V'.
  assert (S : forall x, 0 < norm n x -> 0 < inner n x x (fun _ => 1)) by (intros x X; rewrite inner_one, <- norm_sq; apply Rmult_lt_0_compat; assumption).
  destruct (C106_weighted dbg n u v (fun _ => 1) ltac:(intros; lra) (S u U') (S v V')) as (t & T1 & _ & T3 & T4 & _). rewrite T1. f_equal.
  destruct (C106_angle n u vzero v U V) as (A1 & A2 & _). rewrite !inner_one in T4. rewrite (dot_ext n _ _ _ _ (E u) (E v)), (norm_ext n _ _ (E u)), (norm_ext n _ _ (E v)) in A2.
  change (sqrt (dot n u u)) with (norm n u) in T4. change (sqrt (dot n v v)) with (norm n v) in T4. rewrite T4 in A2.
  apply Rmult_eq_reg_l in A2; [|apply Rgt_not_eq, Rmult_lt_0_compat; assumption]. rewrite <- (acos_cos t T3), <- (acos_cos _ A1). f_equal. exact A2.
Qed.
Print Assumptions C106_unit_weights.
(** A zero vector has no direction; the debug build stops, the release build answers that it is opposite to every vector, itself too. *)
Theorem C106_zero_refuted : exists n u w, (forall i, (i < n)%nat -> 0 < w i) /\ wangle true n u u w = AssertFail /\ wangle false n u u w = Ok PI.
Proof.
  exists 1%nat, vzero, (fun _ => 1). split; [intros; lra|]. assert (Z : wdot 1 vzero vzero (fun _ => 1) = 0) by (rewrite wdot_inner; cbn; unfold vzero; ring).
  assert (N : wnorm 1 vzero (fun _ => 1) = Some 0). { unfold wnorm. rewrite Z. destruct (Rltb 0 0) eqn:L; [apply Rltb_true in L; lra|]. rewrite sqrt_0. reflexivity. }
  assert (L0 : Rltb 0 0 = false) by (apply Rltb_false; lra). unfold wangle, wcosine, cassert. rewrite N, L0. cbn [andb negb obind]. split; [reflexivity|]. unfold clamped_quotient. rewrite Z, Rmult_0_l, L0.
  rewrite (proj2 (Reqb_true 0 0) eq_refl). f_equal. exact acos_m1.
Qed.
Print Assumptions C106_zero_refuted.
(** A negative weight: the release build can answer that a vector is opposite to itself as well. *)
Theorem C106_negative_weight_refuted : exists n u w, inner n u u w <> 0 /\ wangle false n u u w = Ok PI.
Proof.
  exists 1%nat, (fun _ => 1), (fun _ => -1). split; [cbn; lra|]. unfold wangle, wcosine, wnorm, cassert. rewrite wdot_inner. replace (inner 1 (fun _ => 1) (fun _ => 1) (fun _ => -1)) with (-1) by (cbn; ring).
  rewrite (proj2 (Rltb_true (-1) 0) ltac:(lra)). cbn [andb negb obind clamped_quotient]. f_equal. exact acos_m1.
Qed.
Print Assumptions C106_negative_weight_refuted.
Example weighted_case : (forall i, (i < 2)%nat -> 0 <= (fun k => INR k) i) /\ 0 < inner 2 (fun _ => 1) (fun _ => 1) (fun k => INR k).
Proof. split; [intros i _; apply pos_INR|]. cbn. lra. Qed.

(** ** C107: averages of vectors *)
Definition mean_of (vs : list vec) (ws : list R) (i : nat) : R := weighted_sum (map (fun v => v i) vs) ws / total_weight ws.
(** The sum of [|w| * f v] over the vectors. *)
Definition wsum (f : vec -> R) (vs : list vec) (ws : list R) : R := Rsum (map (fun c => Rabs (snd c) * f (fst c)) (combine vs ws)).
Lemma combine_map {A B C} (f : A -> B) (vs : list A) (ws : list C) : combine (map f vs) ws = map (fun c => (f (fst c), snd c)) (combine vs ws).
Proof. revert ws. induction vs as [|v vs IH]; intros [|w ws]; cbn; try reflexivity. rewrite IH. reflexivity. Qed.
Lemma skipn_map {A B} (f : A -> B) k (l : list A) : skipn k (map f l) = map f (skipn k l).
Proof. revert l. induction k as [|k IH]; intros [|x l]; cbn; auto. Qed.
Lemma vaverage_fold n c : forall rest a s, dot n c (fst (fold_left vaverage_step rest (a, s))) = fst (fold_left average_step (map (fun e => (dot n c (fst e), snd e)) rest) (dot n c a, s)).
Proof.
  induction rest as [|[v w] rest IH]; intros a s; cbn [fold_left map fst snd]; [reflexivity|]. cbn [vaverage_step average_step fst snd]. rewrite IH. dots. reflexivity.
Qed.
(** Every linear functional of the average is the average of the functional. *)
Lemma vaverage_map n c dbg vs ws : average dbg (map (fun v => dot n c v) vs) ws = obind (vaverage dbg vs ws) (fun a => Ok (dot n c a)).
Proof.
  unfold average, vaverage, cassert. rewrite map_length. destruct (dbg && negb (0 <? length vs)%nat); [reflexivity|]. destruct (dbg && negb ((length ws =? length vs) || (length ws =? 0))%nat); [reflexivity|].
  destruct (dbg && negb (starting_idx 0 ws <? length vs)%nat); [reflexivity|]. destruct (negb (length ws =? 0)%nat && (length ws <? length vs)%nat); [reflexivity|].
  rewrite combine_map, skipn_map. destruct (skipn _ _) as [|[v w] rest]; [reflexivity|]. cbn [map fst snd]. destruct (dbg && negb (Rltb 0 (Rabs w))); [reflexivity|]. cbn [obind]. f_equal. symmetry. apply vaverage_fold.
Qed.
Lemma wsum_add f g vs ws : wsum (fun v => f v + g v) vs ws = wsum f vs ws + wsum g vs ws.
Proof. unfold wsum. induction (combine vs ws) as [|c l IH]; cbn [map Rsum fold_right]; [ring|]. unfold Rsum in IH. rewrite IH. ring. Qed.
Lemma wsum_scale k f vs ws : wsum (fun v => k * f v) vs ws = k * wsum f vs ws.
Proof. unfold wsum. induction (combine vs ws) as [|c l IH]; cbn [map Rsum fold_right]; [ring|]. unfold Rsum in IH. rewrite IH. ring. Qed.
Lemma wsum_ext f g vs ws : (forall v, f v = g v) -> wsum f vs ws = wsum g vs ws.
Proof. intros H. unfold wsum. f_equal. apply map_ext. intros c. rewrite H. reflexivity. Qed.
Lemma wsum_const vs ws : length ws = length vs -> wsum (fun _ => 1) vs ws = total_weight ws.
Proof.
  unfold wsum, total_weight, Rsum. revert ws. induction vs as [|v vs IH]; intros [|w ws] L; cbn in *; try lia; [reflexivity|]. rewrite IH by lia. ring.
Qed.
Lemma weighted_sum_map f vs ws : weighted_sum (map f vs) ws = wsum f vs ws.
Proof. unfold weighted_sum, wsum. rewrite combine_map, map_map. reflexivity. Qed.
(** C107: with as many weights as vectors, not all zero: entry by entry the weighted mean; it lies in every half-space that contains the vectors of
    non-zero weight (so in their convex hull), and no other point has a smaller weighted sum of squared distances to the vectors. *)
Theorem C107_average dbg n vs ws : length ws = length vs -> (exists w, In w ws /\ w <> 0) ->
  exists a, vaverage dbg vs ws = Ok a /\ 0 < total_weight ws /\ (forall i, a i = mean_of vs ws i) /\
    (forall c bound, (forall v w, In (v, w) (combine vs ws) -> w <> 0 -> dot n c v <= bound) -> dot n c a <= bound) /\
    (forall x, wsum (fun v => dot n (vsub v a) (vsub v a)) vs ws <= wsum (fun v => dot n (vsub v x) (vsub v x)) vs ws) /\
    (forall x, wsum (fun v => dot n (vsub v x) (vsub v x)) vs ws <= wsum (fun v => dot n (vsub v a) (vsub v a)) vs ws -> veq n x a).
Proof.
  intros L W.
  assert (A : forall m c, exists r, average dbg (map (fun v => dot m c v) vs) ws = Ok r /\ r = wsum (dot m c) vs ws / total_weight ws /\ 0 < total_weight ws /\ (forall lo hi, (forall v w, In (v, w) (combine (map (fun v => dot m c v) vs) ws) -> w <> 0 -> lo <= v <= hi) -> lo <= r <= hi)).
  { intros m c. destruct (C52_average dbg (map (fun v => dot m c v) vs) ws ltac:(rewrite map_length; exact L) W) as (r & R1 & R2 & R3 & R4). exists r. rewrite weighted_sum_map in R2. auto. }
  assert (EX : exists a, vaverage dbg vs ws = Ok a). { destruct (A O vzero) as (r & R & _). rewrite vaverage_map in R. destruct (vaverage dbg vs ws); try discriminate R. eexists; reflexivity. }
  destruct EX as [a Ea]. exists a. split; [exact Ea|]. destruct (A O vzero) as (_ & _ & _ & T & _). split; [exact T|].
  assert (F : forall m c, wsum (dot m c) vs ws = total_weight ws * dot m c a).
  { intros m c. destruct (A m c) as (r & R1 & R2 & _). rewrite vaverage_map, Ea in R1. cbn [obind] in R1. injection R1 as R1. rewrite R1, R2. field. lra. }
  split; [|split].
  - intros i. unfold mean_of. rewrite weighted_sum_map. assert (B : forall v : vec, dot (S i) (basis i) v = v i).
    { intros v. cbn [dot]. assert (Z : forall k, (k <= i)%nat -> dot k (basis i) v = 0). { induction k as [|k IH]; intros K; [reflexivity|]. cbn [dot]. rewrite IH by lia. unfold basis. replace (k =? i)%nat with false by (symmetry; apply Nat.eqb_neq; lia). ring. }
      rewrite Z by lia. unfold basis. rewrite Nat.eqb_refl. ring. }
    match goal with |- _ = ?w / _ => assert (E : w = total_weight ws * a i) end; [|rewrite E; field; lra].
    transitivity (wsum (dot (S i) (basis i)) vs ws); [apply wsum_ext; intros v; symmetry; apply B | rewrite F, B; reflexivity].
  - intros c bound H. destruct (A n c) as (r & R1 & _ & _ & R4). rewrite vaverage_map, Ea in R1. cbn [obind] in R1. injection R1 as R1. rewrite R1.
    assert (LB : exists lo, forall v w, In (v, w) (combine vs ws) -> lo <= dot n c v).
    { clear. induction (combine vs ws) as [|[v w] l [lo IH]]; [exists 0; intros v w []|]. exists (Rmin lo (dot n c v)). intros v' w' [I|I]; [injection I as <- <-; apply Rmin_r | apply Rle_trans with lo; [apply Rmin_l | eauto]]. }
    destruct LB as [lo LB]. apply (R4 lo bound). intros v w I N. rewrite combine_map in I. apply in_map_iff in I. destruct I as ([v' w'] & E & I). cbn in E. injection E as <- <-. split; [eapply LB; eauto | eapply H; eauto].
  - assert (Q : forall x, wsum (fun v => dot n (vsub v x) (vsub v x)) vs ws = wsum (fun v => dot n (vsub v a) (vsub v a)) vs ws + total_weight ws * dot n (vsub x a) (vsub x a)).
    { assert (G : forall x, wsum (fun v => dot n (vsub v x) (vsub v x)) vs ws = wsum (fun v => dot n v v) vs ws + (-2) * (total_weight ws * dot n x a) + dot n x x * total_weight ws).
      { intros x. rewrite <- (F n x), <- (wsum_const vs ws L), <- !wsum_scale, <- !wsum_add. apply wsum_ext. intros v. dots. rewrite (dot_comm n v x). ring. }
      intros x. rewrite !G. dots. rewrite (dot_comm n a x). ring. }
    split.
    + intros x. rewrite (Q x). pose proof (dot_self_nonneg n (vsub x a)) as P. pose proof (Rmult_le_pos _ _ (Rlt_le _ _ T) P). lra.
    + intros x H. rewrite (Q x) in H. pose proof (dot_self_nonneg n (vsub x a)) as P. assert (Z : dot n (vsub x a) (vsub x a) = 0).
      { destruct P as [P|P]; [|auto]. pose proof (Rmult_lt_0_compat _ _ T P). lra. }
      intros i Hi. pose proof (proj1 (dot_self_zero n _) Z i Hi) as E. unfold vsub, vzero in E. lra.
Qed.
Print Assumptions C107_average.
(** Without weights, the mean. *)
Theorem C107_mean dbg vs : vs <> [] -> exists a, vaverage dbg vs [] = Ok a /\ forall i, a i = Rsum (map (fun v => v i) vs) / INR (length vs).
Proof.
  intros NE. assert (A : forall m c, average dbg (map (fun v => dot m c v) vs) [] = Ok (Rsum (map (fun v => dot m c v) vs) / INR (length vs))).
  { intros m c. rewrite C52_mean, map_length; [reflexivity|]. intros E. apply map_eq_nil in E. contradiction. }
  assert (EX : exists a, vaverage dbg vs [] = Ok a). { pose proof (A O vzero) as R. rewrite vaverage_map in R. destruct (vaverage dbg vs []); try discriminate R. eexists; reflexivity. }
  destruct EX as [a Ea]. exists a. split; [exact Ea|]. intros i. pose proof (A (S i) (basis i)) as R. rewrite vaverage_map, Ea in R. cbn [obind] in R. apply (f_equal (fun o => match o with Ok x => x | _ => 0 end)) in R. cbv beta iota in R.
  assert (B : forall v : vec, dot (S i) (basis i) v = v i).
  { intros v. cbn [dot]. assert (Z : forall k, (k <= i)%nat -> dot k (basis i) v = 0). { induction k as [|k IH]; intros K; [reflexivity|]. cbn [dot]. rewrite IH by lia. unfold basis. replace (k =? i)%nat with false by (symmetry; apply Nat.eqb_neq; lia). ring. }
    rewrite Z by lia. unfold basis. rewrite Nat.eqb_refl. ring. }
  rewrite B in R. rewrite R. f_equal. f_equal. apply map_ext. exact B.
Qed.
Print Assumptions C107_mean.
(** All weights zero: an assertion, or a read past the end. *)
Theorem C107_zero_weights_refuted : exists vs ws, length ws = length vs /\ vs <> [] /\ vaverage true vs ws = AssertFail /\ vaverage false vs ws = UB.
Proof.
  exists [vzero], [0]. split; [reflexivity|]. split; [discriminate|]. unfold vaverage, cassert. cbn [length Nat.ltb Nat.leb Nat.eqb orb andb negb starting_idx]. rewrite (proj2 (Reqb_true 0 0) eq_refl). split; reflexivity.
Qed.
Print Assumptions C107_zero_weights_refuted.
Example vaverage_case : length [1; -2; 0] = length [basis 0; basis 1; vzero] /\ exists w, In w [1; -2; 0] /\ w <> 0.
Proof. split; [reflexivity|]. exists 1. split; [left; reflexivity | lra]. Qed.
