(** C99, C100: distances between rotations and interpolation of rotations. *)
From Coq Require Import Reals Lra Bool.
From Verif Require Import Base MathModel TotpVec GeoModel GeoAlg RotModel GeoProps RotProps.
Open Scope R_scope.

(** ** The quaternion of a rotation matrix *)
Ltac facts H := let L := fresh "L" in let O := fresh "O" in let K := fresh "K" in
  pose proof (rot_left _ H) as L; pose proof (proj1 H) as O; pose proof (rot_cofactor _ H) as K;
  unfold mmul, mtrans, mid in L, O, K; cbn [m00 m01 m02 m10 m11 m12 m20 m21 m22] in L, O, K; symmetry in K;
  injection L as ? ? ? ? ? ? ? ? ?; injection O as ? ? ? ? ? ? ? ? ?; injection K as ? ? ? ? ? ? ? ? ?.
Lemma sk_facts T s k : 0 < T -> s = sqrt T -> k = / 2 / s -> s * s = T /\ s * k = / 2 /\ forall p c, p = c * T -> p * (k * k) = c / 4.
Proof.
  intros P -> ->. assert (Q : 0 < sqrt T) by (apply sqrt_lt_R0; exact P). assert (E : sqrt T * sqrt T = T) by (apply sqrt_sqrt; lra).
  split; [exact E|]. split; [field; lra|]. intros p c ->. rewrite <- E at 1. field. lra.
Qed.
Lemma qfrom_spec m : rotation m -> qdot (qfrom m) (qfrom m) = 1 /\ qmat (qfrom m) = m.
Proof.
  intros H. destruct m as [a00 a01 a02 a10 a11 a12 a20 a21 a22]. facts H. unfold qfrom, mtrace. cbn [m00 m01 m02 m10 m11 m12 m20 m21 m22].
  assert (Fin : forall T s k, 0 < T -> s = sqrt T -> k = / 2 / s ->
    (T = a00 + a11 + a22 + 1 -> let q := mkQ (/ 2 * s) ((a21 - a12) * k) ((a02 - a20) * k) ((a10 - a01) * k) in qdot q q = 1 /\ qmat q = mkM a00 a01 a02 a10 a11 a12 a20 a21 a22) /\
    (T = a00 - a11 - a22 + 1 -> let q := mkQ ((a21 - a12) * k) (/ 2 * s) ((a10 + a01) * k) ((a20 + a02) * k) in qdot q q = 1 /\ qmat q = mkM a00 a01 a02 a10 a11 a12 a20 a21 a22) /\
    (T = a11 - a22 - a00 + 1 -> let q := mkQ ((a02 - a20) * k) ((a01 + a10) * k) (/ 2 * s) ((a21 + a12) * k) in qdot q q = 1 /\ qmat q = mkM a00 a01 a02 a10 a11 a12 a20 a21 a22) /\
    (T = a22 - a00 - a11 + 1 -> let q := mkQ ((a10 - a01) * k) ((a02 + a20) * k) ((a12 + a21) * k) (/ 2 * s) in qdot q q = 1 /\ qmat q = mkM a00 a01 a02 a10 a11 a12 a20 a21 a22)).
  { intros T s k P Es Ek. destruct (sk_facts T s k P Es Ek) as (SS & SK & F). clear Es Ek.
    assert (SKx : forall x, s * k * x = / 2 * x) by (intros x; rewrite SK; reflexivity).
    split; [|split; [|split]]; intros ET.
    - pose proof (F ((a21 - a12) * (a21 - a12)) (1 + a00 - a11 - a22) ltac:(rewrite ET; lra)).
      pose proof (F ((a02 - a20) * (a02 - a20)) (1 - a00 + a11 - a22) ltac:(rewrite ET; lra)).
      pose proof (F ((a10 - a01) * (a10 - a01)) (1 - a00 - a11 + a22) ltac:(rewrite ET; lra)).
      pose proof (F ((a21 - a12) * (a02 - a20)) (a01 + a10) ltac:(rewrite ET; lra)).
      pose proof (F ((a21 - a12) * (a10 - a01)) (a02 + a20) ltac:(rewrite ET; lra)).
      pose proof (F ((a02 - a20) * (a10 - a01)) (a12 + a21) ltac:(rewrite ET; lra)).
      pose proof (SKx (a21 - a12)). pose proof (SKx (a02 - a20)). pose proof (SKx (a10 - a01)). clear F SKx. split; [unf; lra|]. unfold qmat. apply M3_eq; unf; lra.
    - pose proof (F ((a21 - a12) * (a21 - a12)) (1 + a00 + a11 + a22) ltac:(rewrite ET; lra)).
      pose proof (F ((a10 + a01) * (a10 + a01)) (1 - a00 + a11 - a22) ltac:(rewrite ET; lra)).
      pose proof (F ((a20 + a02) * (a20 + a02)) (1 - a00 - a11 + a22) ltac:(rewrite ET; lra)).
      pose proof (F ((a21 - a12) * (a10 + a01)) (a02 - a20) ltac:(rewrite ET; lra)).
      pose proof (F ((a21 - a12) * (a20 + a02)) (a10 - a01) ltac:(rewrite ET; lra)).
      pose proof (F ((a10 + a01) * (a20 + a02)) (a12 + a21) ltac:(rewrite ET; lra)).
      pose proof (SKx (a21 - a12)). pose proof (SKx (a10 + a01)). pose proof (SKx (a20 + a02)). clear F SKx. split; [unf; lra|]. unfold qmat. apply M3_eq; unf; lra.
    - pose proof (F ((a02 - a20) * (a02 - a20)) (1 + a00 + a11 + a22) ltac:(rewrite ET; lra)).
      pose proof (F ((a01 + a10) * (a01 + a10)) (1 + a00 - a11 - a22) ltac:(rewrite ET; lra)).
      pose proof (F ((a21 + a12) * (a21 + a12)) (1 - a00 - a11 + a22) ltac:(rewrite ET; lra)).
      pose proof (F ((a02 - a20) * (a01 + a10)) (a21 - a12) ltac:(rewrite ET; lra)).
      pose proof (F ((a02 - a20) * (a21 + a12)) (a10 - a01) ltac:(rewrite ET; lra)).
      pose proof (F ((a01 + a10) * (a21 + a12)) (a02 + a20) ltac:(rewrite ET; lra)).
      pose proof (SKx (a02 - a20)). pose proof (SKx (a01 + a10)). pose proof (SKx (a21 + a12)). clear F SKx. split; [unf; lra|]. unfold qmat. apply M3_eq; unf; lra.
    - pose proof (F ((a10 - a01) * (a10 - a01)) (1 + a00 + a11 + a22) ltac:(rewrite ET; lra)).
      pose proof (F ((a02 + a20) * (a02 + a20)) (1 + a00 - a11 - a22) ltac:(rewrite ET; lra)).
      pose proof (F ((a12 + a21) * (a12 + a21)) (1 - a00 + a11 - a22) ltac:(rewrite ET; lra)).
      pose proof (F ((a10 - a01) * (a02 + a20)) (a21 - a12) ltac:(rewrite ET; lra)).
      pose proof (F ((a10 - a01) * (a12 + a21)) (a02 - a20) ltac:(rewrite ET; lra)).
      pose proof (F ((a02 + a20) * (a12 + a21)) (a01 + a10) ltac:(rewrite ET; lra)).
      pose proof (SKx (a10 - a01)). pose proof (SKx (a02 + a20)). pose proof (SKx (a12 + a21)). clear F SKx. split; [unf; lra|]. unfold qmat. apply M3_eq; unf; lra. }
  destruct (Rltb 0 (a00 + a11 + a22)) eqn:T0.
  - apply Rltb_true in T0. apply (Fin (a00 + a11 + a22 + 1)); try reflexivity. lra.
  - apply Rltb_false in T0. destruct (Rltb a00 a11) eqn:C1; [apply Rltb_true in C1 | apply Rltb_false in C1].
    + destruct (Rltb a11 a22) eqn:C2; [apply Rltb_true in C2 | apply Rltb_false in C2].
      * apply (Fin (a22 - a00 - a11 + 1)); try reflexivity. lra.
      * apply (Fin (a11 - a22 - a00 + 1)); try reflexivity. lra.
    + destruct (Rltb a00 a22) eqn:C2; [apply Rltb_true in C2 | apply Rltb_false in C2].
      * apply (Fin (a22 - a00 - a11 + 1)); try reflexivity. lra.
      * apply (Fin (a00 - a11 - a22 + 1)); try reflexivity. lra.
Qed.

(** ** Angles *)
Lemma acos_double c : 0 <= c <= 1 -> acos (2 * (c * c) - 1) = 2 * acos c.
Proof.
  intros H. destruct (acos_bound c) as [B0 B1]. assert (B2 : acos c <= PI / 2).
  { destruct (Rle_lt_dec (acos c) (PI / 2)) as [K|K]; [exact K|]. exfalso. pose proof (cos_lt_0 (acos c) K ltac:(lra)) as Q. rewrite cos_acos in Q by lra. lra. }
  rewrite <- (acos_cos (2 * acos c)) by lra. f_equal. rewrite cos_2a, cos_acos by lra. pose proof (trig (acos c)) as T. rewrite cos_acos in T by lra. lra.
Qed.
Lemma acos_half c : 0 <= c <= 1 -> 0 <= acos c <= PI / 2.
Proof.
  intros H. split; [apply acos_bound|]. pose proof (acos_bound c).
  destruct (Rle_lt_dec (acos c) (PI / 2)) as [K|K]; [exact K|]. exfalso. pose proof (cos_lt_0 (acos c) K ltac:(lra)) as Q. rewrite cos_acos in Q by lra. lra.
Qed.
Lemma sin_acos_sq c : -1 <= c <= 1 -> sin (acos c) * sin (acos c) = 1 - c * c /\ 0 <= sin (acos c).
Proof.
  intros H. split; [pose proof (trig (acos c)) as T; rewrite cos_acos in T by lra; lra|]. apply sin_ge_0; apply acos_bound.
Qed.
Definition qunit (q : quat) : Prop := qdot q q = 1.
Definition qneg (q : quat) : quat := qsmul (-1) q.
Lemma cauchy4 a b : qdot a b * qdot a b <= qdot a a * qdot b b.
Proof.
  destruct a as [a0 a1 a2 a3], b as [b0 b1 b2 b3]. unf.
  assert (E : (a0 * a0 + a1 * a1 + a2 * a2 + a3 * a3) * (b0 * b0 + b1 * b1 + b2 * b2 + b3 * b3) - (a0 * b0 + a1 * b1 + a2 * b2 + a3 * b3) * (a0 * b0 + a1 * b1 + a2 * b2 + a3 * b3) =
    Rsqr (a0 * b1 - a1 * b0) + Rsqr (a0 * b2 - a2 * b0) + Rsqr (a0 * b3 - a3 * b0) + Rsqr (a1 * b2 - a2 * b1) + Rsqr (a1 * b3 - a3 * b1) + Rsqr (a2 * b3 - a3 * b2)) by (unfold Rsqr; ring).
  pose proof (Rle_0_sqr (a0 * b1 - a1 * b0)). pose proof (Rle_0_sqr (a0 * b2 - a2 * b0)). pose proof (Rle_0_sqr (a0 * b3 - a3 * b0)).
  pose proof (Rle_0_sqr (a1 * b2 - a2 * b1)). pose proof (Rle_0_sqr (a1 * b3 - a3 * b1)). pose proof (Rle_0_sqr (a2 * b3 - a3 * b2)). lra.
Qed.
Lemma unit_dot a b : qunit a -> qunit b -> 0 <= Rabs (qdot a b) <= 1.
Proof.
  intros A B. split; [apply Rabs_pos|]. pose proof (cauchy4 a b) as C. rewrite A, B in C.
  apply Rsqr_incr_0_var; [|lra]. rewrite <- Rsqr_abs. unfold Rsqr. lra.
Qed.
Lemma abs_sq x : Rabs x * Rabs x = x * x.
Proof. pose proof (Rsqr_abs x) as E. unfold Rsqr in E. lra. Qed.
Lemma qmat_rot q : qunit q -> rotation (qmat q).
Proof.
  intros H. assert (E : qmat (qmul q (qconj q)) = mid). { replace (qmul q (qconj q)) with (mkQ (qdot q q) 0 0 0) by (apply Q_eq; unf; ring). rewrite H. unfold qmat. apply M3_eq; unf; ring. }
  assert (U : qunit (qconj q)). { unfold qunit in *. rewrite <- H. unf; ring. }
  rewrite qmat_mul in E by assumption. assert (T : qmat (qconj q) = mtrans (qmat q)) by (unfold qmat; apply M3_eq; unf; ring). rewrite T in E. split; [exact E|].
  replace (mdet (qmat q)) with (1 + 4 * (qx q * qx q + qy q * qy q + qz q * qz q) * (qdot q q - 1)) by (unfold qmat; unf; ring). rewrite H. ring.
Qed.
Lemma trace_dot a b : qunit a -> qunit b -> mtrace (mmul (qmat a) (mtrans (qmat b))) = 4 * (qdot a b * qdot a b) - 1.
Proof.
  intros A B. assert (U : qunit (qconj b)) by (unfold qunit in *; rewrite <- B; unf; ring).
  replace (mtrans (qmat b)) with (qmat (qconj b)) by (unfold qmat; apply M3_eq; unf; ring). rewrite <- qmat_mul by assumption.
  assert (N : qdot (qmul a (qconj b)) (qmul a (qconj b)) = 1) by (rewrite qdot_qmul, A, U; ring).
  replace (qdot a b) with (qw (qmul a (qconj b))) by (unf; ring). generalize dependent (qmul a (qconj b)). intros q N. unfold qmat. unf. lra.
Qed.
(** The distance of two rotation matrices by the quaternions that represent them. *)
Lemma mdistance_quat a b : qunit a -> qunit b -> mdistance (qmat a) (qmat b) = 2 * acos (Rabs (qdot a b)).
Proof.
  intros A B. unfold mdistance. rewrite trace_dot by assumption. rewrite <- acos_double by (apply unit_dot; assumption). rewrite abs_sq. f_equal. field.
Qed.
Lemma rod_quat w t : rodrigues w t = qmat (qaxis t w).
Proof.
  destruct (half t) as [C S]. pose proof (trig (t / 2)) as T. unfold rodrigues, qaxis. rewrite C, S. generalize dependent (cos (t / 2)). generalize dependent (sin (t / 2)). intros s c _ _ T.
  replace (1 - (c * c - s * s)) with (2 * (s * s)) by lra. unfold qmat. apply M3_eq; unf; ring.
Qed.
Lemma qmat_neg q : qmat (qneg q) = qmat q.
Proof. unfold qmat, qneg, qsmul. apply M3_eq; unf; ring. Qed.

(** ** C99: distances between rotations *)
(** The distance of two rotation matrices is the least angle of a rotation that takes the second to the first. *)
Lemma minimal_rotation m : rotation m -> let t := acos ((mtrace m - 1) / 2) in
  0 <= t <= PI /\ (exists w, unit w /\ m = rodrigues w t) /\ forall w phi, unit w -> m = rodrigues w phi -> t <= Rabs phi.
Proof.
  intros H. destruct (qfrom_spec m H) as [U E]. set (q := qfrom m) in *. clearbody q. cbv zeta.
  assert (Tr : (mtrace m - 1) / 2 = 2 * (Rabs (qw q) * Rabs (qw q)) - 1).
  { rewrite abs_sq, <- E. unfold qmat. unf. lra. }
  assert (Wb : 0 <= Rabs (qw q) <= 1).
  { split; [apply Rabs_pos|]. apply Rsqr_incr_0_var; [|lra]. rewrite <- Rsqr_abs. unfold Rsqr. unf.
    pose proof (Rle_0_sqr (qx q)). pose proof (Rle_0_sqr (qy q)). pose proof (Rle_0_sqr (qz q)). unfold Rsqr in *. lra. }
  rewrite Tr, acos_double by exact Wb. set (h := acos (Rabs (qw q))). destruct (acos_half _ Wb) as [P0 P1]. fold h in P0, P1.
  destruct (sin_acos_sq (Rabs (qw q)) ltac:(lra)) as [Ss Sp]. fold h in Ss, Sp.
  assert (Ch : cos h = Rabs (qw q)) by (apply cos_acos; lra).
  split; [lra|]. split.
  - set (g := if Rle_dec 0 (qw q) then 1 else -1).
    assert (Hg : g * g = 1 /\ g * qw q = Rabs (qw q)). { unfold g. destruct (Rle_dec 0 (qw q)) as [K|K]; [rewrite Rabs_right by lra | rewrite Rabs_left by lra]; lra. }
    destruct Hg as [Hg Hw]. rewrite abs_sq in Ss.
    destruct (Req_dec (sin h) 0) as [Z|Z].
    + exists (mkV 1 0 0). split; [unfold unit; unf; ring|]. rewrite rod_quat, <- E. unfold qaxis. replace (2 * h / 2) with h by field. rewrite Z, Ch.
      assert (X : qx q = 0 /\ qy q = 0 /\ qz q = 0).
      { rewrite Z in Ss. unf. pose proof (Rle_0_sqr (qx q)) as X. pose proof (Rle_0_sqr (qy q)) as Y. pose proof (Rle_0_sqr (qz q)) as Zz.
        split; [|split]; apply Rsqr_0_uniq; unfold Rsqr in *; lra. }
      destruct X as (X & Y & Z'). unfold qmat. apply M3_eq; unf; rewrite ?X, ?Y, ?Z'; ring.
    + exists (mkV (g / sin h * qx q) (g / sin h * qy q) (g / sin h * qz q)). split.
      * unfold unit. unf. replace (g / sin h * qx q * (g / sin h * qx q) + g / sin h * qy q * (g / sin h * qy q) + g / sin h * qz q * (g / sin h * qz q)) with
          ((g * g) * (qx q * qx q + qy q * qy q + qz q * qz q) / (sin h * sin h)) by (field; exact Z).
        rewrite Hg. replace (qx q * qx q + qy q * qy q + qz q * qz q) with (sin h * sin h) by lra. field. exact Z.
      * rewrite rod_quat, <- E. unfold qaxis. replace (2 * h / 2) with h by field. rewrite Ch, <- Hw. unf.
        replace (sin h * (g / sin h * qx q)) with (g * qx q) by (field; exact Z). replace (sin h * (g / sin h * qy q)) with (g * qy q) by (field; exact Z).
        replace (sin h * (g / sin h * qz q)) with (g * qz q) by (field; exact Z).
        unfold g. destruct (Rle_dec 0 (qw q)); unfold qmat; apply M3_eq; unf; ring.
  - intros w phi Uw Em. destruct (Rle_lt_dec (2 * h) (Rabs phi)) as [L|L]; [exact L|]. exfalso.
    assert (C : cos phi = 2 * (Rabs (qw q) * Rabs (qw q)) - 1).
    { rewrite <- Tr, Em. assert (X : mtrace (rodrigues w phi) = 3 - 2 * (1 - cos phi) * vdot w w) by (unfold rodrigues; unf; ring). rewrite X, Uw. field. }
    assert (D : cos (Rabs phi) = cos phi) by (destruct (Rle_lt_dec 0 phi); [rewrite Rabs_right by lra; reflexivity | rewrite Rabs_left by lra; apply cos_neg]).
    pose proof (cos_decreasing_1 (Rabs phi) (2 * h) ltac:(apply Rabs_pos) ltac:(lra) ltac:(lra) ltac:(lra) L) as K.
    rewrite D, C, cos_2a, Ch in K. lra.
Qed.

Lemma trace_cyc a b : mtrace (mmul a b) = mtrace (mmul b a). Proof. unf; ring. Qed.
Lemma trace_trans a : mtrace (mtrans a) = mtrace a. Proof. unf; ring. Qed.
(** |a - x b| |c - y b| bounds (a - x b) . (c - y b). *)
Lemma gram a b c : qunit a -> qunit b -> qunit c ->
  (qdot a c - qdot a b * qdot b c) * (qdot a c - qdot a b * qdot b c) <= (1 - qdot a b * qdot a b) * (1 - qdot b c * qdot b c).
Proof.
  intros A B C. set (x := qdot a b). set (y := qdot b c).
  set (u := mkQ (qw a - x * qw b) (qx a - x * qx b) (qy a - x * qy b) (qz a - x * qz b)).
  set (v := mkQ (qw c - y * qw b) (qx c - y * qx b) (qy c - y * qy b) (qz c - y * qz b)).
  assert (D : qdot u v = qdot a c - x * y).
  { assert (E : qdot u v = qdot a c - y * qdot a b - x * qdot b c + x * y * qdot b b) by (unfold u, v; unf; ring). rewrite E, B. fold x y. ring. }
  assert (N : qdot u u = 1 - x * x).
  { assert (E : qdot u u = qdot a a - 2 * x * qdot a b + x * x * qdot b b) by (unfold u; unf; ring). rewrite E, A, B. fold x. ring. }
  assert (M : qdot v v = 1 - y * y).
  { assert (E : qdot v v = qdot c c - 2 * y * qdot b c + y * y * qdot b b) by (unfold v; unf; ring). rewrite E, C, B. fold y. ring. }
  pose proof (cauchy4 u v) as G. rewrite D, N, M in G. exact G.
Qed.
Lemma half_triangle a b c : qunit a -> qunit b -> qunit c -> acos (Rabs (qdot a c)) <= acos (Rabs (qdot a b)) + acos (Rabs (qdot b c)).
Proof.
  intros A B C. pose proof (unit_dot a b A B) as X. pose proof (unit_dot b c B C) as Y. pose proof (unit_dot a c A C) as Z.
  pose proof (gram a b c A B C) as G. set (x := qdot a b) in *. set (y := qdot b c) in *. set (z := qdot a c) in *.
  destruct (acos_half _ X) as [X0 X1]. destruct (acos_half _ Y) as [Y0 Y1]. destruct (acos_half _ Z) as [Z0 Z1].
  destruct (sin_acos_sq (Rabs x) ltac:(lra)) as [Sx Px]. destruct (sin_acos_sq (Rabs y) ltac:(lra)) as [Sy Py].
  destruct (Rle_lt_dec (acos (Rabs z)) (acos (Rabs x) + acos (Rabs y))) as [L|L]; [exact L|]. exfalso.
  pose proof (cos_decreasing_1 (acos (Rabs x) + acos (Rabs y)) (acos (Rabs z)) ltac:(lra) ltac:(lra) ltac:(lra) ltac:(lra) L) as K.
  rewrite cos_plus, !cos_acos in K by lra. set (p := sin (acos (Rabs x))) in *. set (q := sin (acos (Rabs y))) in *.
  rewrite abs_sq in Sx, Sy. rewrite <- Sx, <- Sy in G.
  assert (V : Rabs (z - x * y) <= p * q).
  { apply Rsqr_incr_0_var; [|apply Rmult_le_pos; assumption]. rewrite <- Rsqr_abs. unfold Rsqr. lra. }
  pose proof (Rabs_triang z (x * y - z)) as T. replace (z + (x * y - z)) with (x * y) in T by ring. rewrite (Rabs_mult x y) in T.
  rewrite (Rabs_minus_sym (x * y) z) in T. lra.
Qed.
Theorem C99_matrix a b : rotation a -> rotation b -> let t := mdistance a b in
  0 <= t <= PI /\ (exists w, unit w /\ a = mmul (rodrigues w t) b) /\ (forall w phi, unit w -> a = mmul (rodrigues w phi) b -> t <= Rabs phi) /\ (t = 0 <-> a = b).
Proof.
  intros A B. cbv zeta. unfold mdistance. pose proof (minimal_rotation (mmul a (mtrans b)) (rot_mul _ _ A (rot_trans _ B))) as (R & (w & U & E) & M). cbv zeta in *.
  set (t := acos ((mtrace (mmul a (mtrans b)) - 1) / 2)) in *.
  assert (X : a = mmul (rodrigues w t) b) by (rewrite <- E, mmul_assoc, (rot_left b B), mmul_1_r; reflexivity).
  split; [exact R|]. split; [exists w; split; assumption|]. split.
  - intros w' phi U' E'. apply (M w'); [exact U'|]. rewrite E', mmul_assoc, (proj1 B), mmul_1_r. reflexivity.
  - split; intros H; [rewrite X, H, rod_0, mmul_1_l; reflexivity|]. unfold t. rewrite H, (proj1 B). unf. replace ((1 + 1 + 1 - 1) / 2) with 1 by field. apply acos_1.
Qed.
Theorem C99_metric a b c : rotation a -> rotation b -> rotation c ->
  mdistance a b = mdistance b a /\ mdistance a c <= mdistance a b + mdistance b c /\
  mdistance (mmul c a) (mmul c b) = mdistance a b /\ mdistance (mmul a c) (mmul b c) = mdistance a b.
Proof.
  intros A B C. split; [|split; [|split]].
  - unfold mdistance. do 3 f_equal. rewrite <- (trace_trans (mmul a (mtrans b))), mtrans_mmul, mtrans_inv. reflexivity.
  - destruct (qfrom_spec a A) as [Ua Ea]. destruct (qfrom_spec b B) as [Ub Eb]. destruct (qfrom_spec c C) as [Uc Ec].
    rewrite <- Ea, <- Eb, <- Ec, !mdistance_quat by assumption. pose proof (half_triangle _ _ _ Ua Ub Uc). lra.
  - unfold mdistance. do 3 f_equal. rewrite mtrans_mmul, mmul_assoc, trace_cyc, !mmul_assoc, (rot_left c C), mmul_1_r. reflexivity.
  - unfold mdistance. do 3 f_equal. rewrite mtrans_mmul, mmul_assoc, <- (mmul_assoc c), (proj1 C), mmul_1_l. reflexivity.
Qed.
(** What the distance of two unit quaternions should be: that of the rotations they stand for. *)
Definition cutoff : R := 2 * acos (1 - epsilon).
Lemma eps_bounds : 0 < epsilon < / 1000.
Proof. unfold epsilon. split; [apply Rinv_0_lt_compat, pow_lt; lra|]. apply Rinv_lt_contravar; [|]; [apply Rmult_lt_0_compat; [lra|apply pow_lt; lra]|]. lra. Qed.
Theorem C99_quaternion_partial a b c : qunit a -> qunit b -> qunit c ->
  qdistance a b = qdistance b a /\ qdistance (qneg a) b = qdistance a b /\
  qdistance (qmul c a) (qmul c b) = qdistance a b /\ qdistance (qmul a c) (qmul b c) = qdistance a b /\
  (cutoff < mdistance (qmat a) (qmat b) -> qdistance a b = mdistance (qmat a) (qmat b)) /\
  (mdistance (qmat a) (qmat b) <= cutoff -> qdistance a b = 0).
Proof.
  intros A B C. pose proof eps_bounds as Ep. split; [|split; [|split; [|split]]].
  - unfold qdistance. replace (qdot b a) with (qdot a b) by (unf; ring). reflexivity.
  - unfold qdistance. replace (qdot (qneg a) b) with (- qdot a b) by (unfold qneg, qsmul; unf; ring). rewrite Rabs_Ropp. reflexivity.
  - unfold qdistance. replace (qdot (qmul c a) (qmul c b)) with (qdot c c * qdot a b) by (unf; ring). rewrite C, Rmult_1_l. reflexivity.
  - unfold qdistance. replace (qdot (qmul a c) (qmul b c)) with (qdot c c * qdot a b) by (unf; ring). rewrite C, Rmult_1_l. reflexivity.
  - rewrite mdistance_quat by assumption. pose proof (unit_dot a b A B) as X. unfold qdistance, cutoff. rewrite acos_double by exact X.
    set (d := Rabs (qdot a b)) in *. destruct (acos_half d X) as [X0 X1]. destruct (acos_half (1 - epsilon) ltac:(lra)) as [E0 E1]. pose proof PI_RGT_0.
    destruct (Rltb d (1 - epsilon)) eqn:T; [apply Rltb_true in T | apply Rltb_false in T]; (split; intros H0; [|]); try reflexivity; exfalso.
    + destruct (Rle_lt_or_eq_dec (acos d) (acos (1 - epsilon)) ltac:(lra)) as [L|L].
      * pose proof (cos_decreasing_1 (acos d) (acos (1 - epsilon)) ltac:(lra) ltac:(lra) ltac:(lra) ltac:(lra) L) as K. rewrite !cos_acos in K by lra. lra.
      * apply (f_equal cos) in L. rewrite !cos_acos in L by lra. lra.
    + pose proof (cos_decreasing_1 (acos (1 - epsilon)) (acos d) ltac:(lra) ltac:(lra) ltac:(lra) ltac:(lra) ltac:(lra)) as K. rewrite !cos_acos in K by lra. lra.
Qed.
(** Two steps too small to be seen add up to one that is seen. *)
Theorem C99_quaternion_refuted : exists a b c, qunit a /\ qunit b /\ qunit c /\ qdistance a b = 0 /\ qmat a <> qmat b /\ qdistance a c > qdistance a b + qdistance b c.
Proof.
  pose proof eps_bounds as Ep. set (k := 1 - epsilon). set (s := sqrt (1 - k * k)).
  assert (P : 0 < 1 - k * k) by (unfold k; nra). assert (S : s * s = 1 - k * k) by (apply sqrt_sqrt; lra). assert (S0 : 0 < s) by (apply sqrt_lt_R0; exact P).
  exists (mkQ k (- s) 0 0), (mkQ 1 0 0 0), (mkQ k s 0 0).
  assert (Z1 : qdistance (mkQ k (- s) 0 0) (mkQ 1 0 0 0) = 0).
  { unfold qdistance. unf. replace (k * 1 + - s * 0 + 0 * 0 + 0 * 0) with k by ring. rewrite Rabs_right by (unfold k; lra). fold k. destruct (Rltb k k) eqn:T; [apply Rltb_true in T; lra | reflexivity]. }
  assert (Z2 : qdistance (mkQ 1 0 0 0) (mkQ k s 0 0) = 0).
  { unfold qdistance. unf. replace (1 * k + 0 * s + 0 * 0 + 0 * 0) with k by ring. rewrite Rabs_right by (unfold k; lra). fold k. destruct (Rltb k k) eqn:T; [apply Rltb_true in T; lra | reflexivity]. }
  split; [unfold qunit; unf; lra|]. split; [unfold qunit; unf; lra|]. split; [unfold qunit; unf; lra|]. split; [exact Z1|]. split.
  - intros H. apply (f_equal m12) in H. unfold qmat in H. unf. assert (k * s <> 0) by (apply Rmult_integral_contrapositive; unfold k; split; lra). lra.
  - rewrite Z1, Z2. unfold qdistance. unf. replace (k * k + - s * s + 0 * 0 + 0 * 0) with (2 * (k * k) - 1) by lra.
    assert (D : 0 < 2 * (k * k) - 1 < k) by (unfold k; nra). rewrite Rabs_right by lra. fold k. destruct (Rltb (2 * (k * k) - 1) k) eqn:T; [|apply Rltb_false in T; lra].
    set (d := 2 * (k * k) - 1) in *. assert (K1 : k < 1) by (unfold k; lra). assert (D2 : 2 * (d * d) - 1 < 1 /\ -1 <= 2 * (d * d) - 1) by nra.
    destruct (acos_bound (2 * (d * d) - 1)) as [[L|L] _]; [lra|]. exfalso. apply (f_equal cos) in L. rewrite cos_0, cos_acos in L by lra. lra.
Qed.
(** The distance of two isometries: the two parts weighed by alpha; an alpha outside [0, 1] stops a debug build. *)
Theorem C99_isometry dbg a b alpha : rigid a -> rigid b ->
  (0 <= alpha <= 1 -> idistance dbg a b alpha = Ok ((1 - alpha) * vnorm (vsub (itrans a) (itrans b)) + alpha * qdistance (qfrom (irot a)) (qfrom (irot b)))) /\
  (0 <= alpha <= 1 -> cutoff < mdistance (irot a) (irot b) -> idistance dbg a b alpha = Ok ((1 - alpha) * vnorm (vsub (itrans a) (itrans b)) + alpha * mdistance (irot a) (irot b))) /\
  (0 <= alpha <= 1 -> mdistance (irot a) (irot b) <= cutoff -> idistance dbg a b alpha = Ok ((1 - alpha) * vnorm (vsub (itrans a) (itrans b)))) /\
  idistance dbg a b alpha = idistance dbg b a alpha /\
  (alpha < 0 \/ 1 < alpha -> idistance true a b alpha = AssertFail).
Proof.
  intros A B. destruct (qfrom_spec _ A) as [Ua Ea]. destruct (qfrom_spec _ B) as [Ub Eb].
  destruct (C99_quaternion_partial _ _ _ Ua Ub Ub) as (Sy & _ & _ & _ & Far & Near). rewrite Ea, Eb in Far, Near.
  assert (V : vdistance (itrans a) (itrans b) = vnorm (vsub (itrans a) (itrans b))) by (unfold vdistance, vnorm; f_equal; unf; ring).
  assert (G : 0 <= alpha <= 1 -> idistance dbg a b alpha = Ok ((1 - alpha) * vnorm (vsub (itrans a) (itrans b)) + alpha * qdistance (qfrom (irot a)) (qfrom (irot b)))).
  { intros [L0 L1]. unfold idistance. rewrite (proj2 (Rleb_true _ _) L0), (proj2 (Rleb_true _ _) L1). destruct dbg; cbn; rewrite V; f_equal; ring. }
  split; [exact G|]. split; [intros L F; rewrite (G L), (Far F); reflexivity|]. split; [intros L N; rewrite (G L), (Near N); f_equal; ring|]. split.
  - unfold idistance. rewrite Sy. replace (vdistance (itrans b) (itrans a)) with (vdistance (itrans a) (itrans b)) by (unfold vdistance; f_equal; unf; ring). reflexivity.
  - intros [L|L]; unfold idistance; [destruct (Rleb 0 alpha) eqn:T; [apply Rleb_true in T; lra | reflexivity]|].
    destruct (Rleb 0 alpha) eqn:T0; [|reflexivity]. destruct (Rleb alpha 1) eqn:T; [apply Rleb_true in T; lra | reflexivity].
Qed.
Print Assumptions C99_matrix. Print Assumptions C99_metric. Print Assumptions C99_quaternion_partial. Print Assumptions C99_quaternion_refuted. Print Assumptions C99_isometry.
Example quarter_distance : rotation (rot_z (PI / 2)) /\ mdistance (rot_z (PI / 2)) mid = PI / 2.
Proof.
  split; [apply rot_z_rot|]. unfold mdistance. replace ((mtrace (mmul (rot_z (PI / 2)) (mtrans mid)) - 1) / 2) with 0; [apply acos_0|]. unfold rot_z. unf. rewrite cos_PI2, sin_PI2. field.
Qed.

(** ** C100: interpolation *)
Lemma vinter a b ratio : let r := unit_ratio ratio in vinterpolate a b ratio = vadd (vscale (1 - r) a) (vscale r b).
Proof. cbv zeta. unfold vinterpolate. apply V3_eq; unf; ring. Qed.
Lemma ratio_in t : 0 <= t <= 1 -> unit_ratio t = t.
Proof.
  intros H. unfold unit_ratio. destruct (Rltb t 0) eqn:A; [apply Rltb_true in A; lra|]. destruct (Rltb 1 t) eqn:B; [apply Rltb_true in B; lra|]. reflexivity.
Qed.
(** Ratios outside [0, 1] count as the nearer end. *)
Theorem C100_clamped t : 0 <= unit_ratio t <= 1 /\ (0 <= t <= 1 -> unit_ratio t = t) /\
  (forall a b, (t <= 0 -> vinterpolate a b t = a) /\ (1 <= t -> vinterpolate a b t = b) /\ (0 <= t <= 1 -> vinterpolate a b t = vadd (vscale (1 - t) a) (vscale t b))) /\
  (forall a b, (t <= 0 -> qinterpolate a b t = qinterpolate a b 0) /\ (1 <= t -> qinterpolate a b t = qinterpolate a b 1)) /\
  (forall a b, (t <= 0 -> iinterpolate a b t = iinterpolate a b 0) /\ (1 <= t -> iinterpolate a b t = iinterpolate a b 1)).
Proof.
  assert (L : t <= 0 -> unit_ratio t = 0).
  { intros H. unfold unit_ratio. destruct (Rltb t 0) eqn:A; [reflexivity|]. apply Rltb_false in A. destruct (Rltb 1 t) eqn:B; [apply Rltb_true in B; lra|]. lra. }
  assert (G : 1 <= t -> unit_ratio t = 1).
  { intros H. unfold unit_ratio. destruct (Rltb t 0) eqn:A; [apply Rltb_true in A; lra|]. destruct (Rltb 1 t) eqn:B; [reflexivity|]. apply Rltb_false in B; lra. }
  assert (R0 : unit_ratio 0 = 0) by (apply ratio_in; lra). assert (R1 : unit_ratio 1 = 1) by (apply ratio_in; lra).
  split; [destruct (Rle_lt_dec t 0); [rewrite L by lra; lra|]; destruct (Rle_lt_dec 1 t); [rewrite G by lra; lra | rewrite ratio_in by lra; lra]|].
  split; [apply ratio_in|]. split; [|split].
  - intros a b. split; [|split]; intros H; rewrite vinter; cbv zeta; [rewrite L by exact H | rewrite G by exact H | rewrite ratio_in by exact H]; try (apply V3_eq; unf; ring).
  - intros a b. split; intros H; unfold qinterpolate; [rewrite L, R0 by exact H | rewrite G, R1 by exact H]; reflexivity.
  - intros a b. split; intros H; unfold iinterpolate; [rewrite L, R0 by exact H | rewrite G, R1 by exact H]; reflexivity.
Qed.
Definition sgn (d : R) : R := if Rltb d 0 then -1 else 1.
Lemma sgn_abs d : sgn d * sgn d = 1 /\ sgn d * d = Rabs d.
Proof. unfold sgn. destruct (Rltb d 0) eqn:T; [apply Rltb_true in T; rewrite Rabs_left by lra | apply Rltb_false in T; rewrite Rabs_right by lra]; lra. Qed.
Definition blend (a b : quat) (x y : R) : quat := mkQ (x * qw a + y * qw b) (x * qx a + y * qx b) (x * qy a + y * qy b) (x * qz a + y * qz b).
Lemma slerp_far a b t : let d := qdot a b in Rabs d < 1 - epsilon ->
  slerp a t b = blend a b (sin ((1 - t) * acos (Rabs d)) / sin (acos (Rabs d))) (sgn d * (sin (t * acos (Rabs d)) / sin (acos (Rabs d)))).
Proof.
  cbv zeta. intros H. unfold slerp, blend, sgn. destruct (Rleb (1 - epsilon) (Rabs (qdot a b))) eqn:T; [apply Rleb_true in T; lra|].
  destruct (Rltb (qdot a b) 0); apply Q_eq; unf; ring.
Qed.
Lemma slerp_near a b t : let d := qdot a b in 1 - epsilon <= Rabs d -> slerp a t b = blend a b (1 - t) (sgn d * t).
Proof.
  cbv zeta. intros H. unfold slerp, blend, sgn. rewrite (proj2 (Rleb_true _ _) H). destruct (Rltb (qdot a b) 0); apply Q_eq; unf; ring.
Qed.
Lemma blend_dots a b x y : qunit a -> qunit b -> let d := qdot a b in
  qdot (blend a b x y) (blend a b x y) = x * x + y * y + 2 * (x * y * d) /\ qdot a (blend a b x y) = x + y * d /\ qdot (blend a b x y) b = x * d + y.
Proof.
  intros A B. cbv zeta. unfold blend. split; [|split].
  - replace (x * x + y * y + 2 * (x * y * qdot a b)) with (x * x * qdot a a + y * y * qdot b b + 2 * (x * y * qdot a b)) by (rewrite A, B; ring). unf; ring.
  - replace (x + y * qdot a b) with (x * qdot a a + y * qdot a b) by (rewrite A; ring). unf; ring.
  - replace (x * qdot a b + y) with (x * qdot a b + y * qdot b b) by (rewrite B; ring). unf; ring.
Qed.
Lemma far_dot a b : qunit a -> qunit b -> (cutoff < mdistance (qmat a) (qmat b) <-> Rabs (qdot a b) < 1 - epsilon).
Proof.
  intros A B. pose proof eps_bounds as Ep. rewrite mdistance_quat by assumption. pose proof (unit_dot a b A B) as X. unfold cutoff.
  set (d := Rabs (qdot a b)) in *. destruct (acos_half d X) as [X0 X1]. destruct (acos_half (1 - epsilon) ltac:(lra)) as [E0 E1]. pose proof PI_RGT_0. split; intros H0.
  - pose proof (cos_decreasing_1 (acos (1 - epsilon)) (acos d) ltac:(lra) ltac:(lra) ltac:(lra) ltac:(lra) ltac:(lra)) as K. rewrite !cos_acos in K by lra. lra.
  - destruct (Rlt_le_dec (acos (1 - epsilon)) (acos d)) as [L|L]; [lra|]. exfalso. destruct L as [L|L].
    + pose proof (cos_decreasing_1 (acos d) (acos (1 - epsilon)) ltac:(lra) ltac:(lra) ltac:(lra) ltac:(lra) L) as K. rewrite !cos_acos in K by lra. lra.
    + apply (f_equal cos) in L. rewrite !cos_acos in L by lra. lra.
Qed.
Theorem C100_quaternion_partial a b t : qunit a -> qunit b -> 0 <= t <= 1 ->
  let r := qinterpolate a b t in let total := mdistance (qmat a) (qmat b) in
  (cutoff < total -> qunit r /\ mdistance (qmat a) (qmat r) = t * total /\ mdistance (qmat r) (qmat b) = (1 - t) * total) /\
  (total <= cutoff -> 1 - epsilon / 2 <= qdot r r <= 1) /\
  qinterpolate a b 0 = a /\ (qinterpolate a b 1 = b \/ qinterpolate a b 1 = qneg b).
Proof.
  intros A B T. cbv zeta. pose proof eps_bounds as Ep. pose proof (far_dot a b A B) as FD. pose proof (unit_dot a b A B) as X.
  destruct (sgn_abs (qdot a b)) as [G1 G2]. split; [|split].
  - intros F. apply FD in F. unfold qinterpolate. rewrite ratio_in by exact T. rewrite slerp_far by exact F.
    set (d := qdot a b) in *. set (th := acos (Rabs d)). destruct (acos_half _ X) as [P0 P1]. fold th in P0, P1. pose proof PI_RGT_0 as PIp.
    assert (Ct : cos th = Rabs d) by (apply cos_acos; lra).
    assert (S : sin th <> 0). { destruct (sin_acos_sq (Rabs d) ltac:(lra)) as [Q _]. fold th in Q. intros Z. rewrite Z in Q. nra. }
    set (al := (1 - t) * th). set (be := t * th). assert (Sum : th = al + be) by (unfold al, be; ring).
    assert (Sa : sin al = sin th * cos be - cos th * sin be) by (replace al with (th - be) by lra; apply sin_minus).
    assert (Sb : sin be = sin th * cos al - cos th * sin al) by (replace be with (th - al) by lra; apply sin_minus).
    set (x := sin al / sin th). set (y := sin be / sin th).
    destruct (blend_dots a b x (sgn d * y) A B) as (N & Da & Db). fold d in N, Da, Db.
    assert (Xa : x + y * Rabs d = cos be). { unfold x, y. rewrite <- Ct. rewrite Sa. field. exact S. }
    assert (Xb : x * Rabs d + y = cos al). { unfold x, y. rewrite <- Ct. rewrite Sb. field. exact S. }
    assert (U : qunit (blend a b x (sgn d * y))).
    { unfold qunit. rewrite N. replace (x * x + sgn d * y * (sgn d * y) + 2 * (x * (sgn d * y) * d)) with (x * (x + y * (sgn d * d)) + y * (x * (sgn d * d) + sgn d * sgn d * y)) by ring.
      rewrite G1, G2, Rmult_1_l, Xa, Xb. unfold x, y. replace (sin al / sin th * cos be + sin be / sin th * cos al) with ((sin al * cos be + cos al * sin be) / sin th) by (field; exact S).
      rewrite <- sin_plus, <- Sum. field. exact S. }
    split; [exact U|]. rewrite !mdistance_quat by assumption. fold d. rewrite Da, Db. fold th.
    assert (Ba : 0 <= al <= PI / 2) by (unfold al; nra). assert (Bb : 0 <= be <= PI / 2) by (unfold be; nra).
    assert (Ha : Rabs (x + sgn d * y * d) = cos be) by (replace (x + sgn d * y * d) with (x + y * (sgn d * d)) by ring; rewrite G2, Xa; apply Rabs_right, Rle_ge, cos_ge_0; lra).
    assert (Hb : Rabs (x * d + sgn d * y) = cos al).
    { replace (x * d + sgn d * y) with (sgn d * (x * (sgn d * d) + y)) by (transitivity (sgn d * sgn d * (x * d) + sgn d * y); [ring | rewrite G1; ring]). rewrite G2, Xb, Rabs_mult.
      replace (Rabs (sgn d)) with 1 by (unfold sgn; destruct (Rltb d 0); [rewrite Rabs_left by lra | rewrite Rabs_right by lra]; ring).
      rewrite Rmult_1_l. apply Rabs_right, Rle_ge, cos_ge_0; lra. }
    rewrite Ha, Hb, !acos_cos by lra. split; unfold al, be; ring.
  - intros F. assert (Nd : 1 - epsilon <= Rabs (qdot a b)). { destruct (Rlt_le_dec (Rabs (qdot a b)) (1 - epsilon)) as [L|L]; [apply FD in L; lra | exact L]. }
    unfold qinterpolate. rewrite ratio_in by exact T. rewrite slerp_near by exact Nd. destruct (blend_dots a b (1 - t) (sgn (qdot a b) * t) A B) as (N & _ & _). rewrite N.
    set (d := qdot a b) in *. replace ((1 - t) * (1 - t) + sgn d * t * (sgn d * t) + 2 * ((1 - t) * (sgn d * t) * d)) with ((1 - t) * (1 - t) + sgn d * sgn d * (t * t) + 2 * ((1 - t) * t * (sgn d * d))) by ring.
    rewrite G1, G2. set (z := Rabs d) in *. replace ((1 - t) * (1 - t) + 1 * (t * t) + 2 * ((1 - t) * t * z)) with (1 - 2 * (t * (1 - t)) * (1 - z)) by ring.
    assert (Q : 0 <= t * (1 - t) <= / 4) by (pose proof (Rle_0_sqr (t - / 2)) as K; unfold Rsqr in K; nra). nra.
  - unfold qinterpolate. rewrite !ratio_in by lra. destruct (Rlt_le_dec (Rabs (qdot a b)) (1 - epsilon)) as [L|L].
    + rewrite !slerp_far by exact L. set (th := acos (Rabs (qdot a b))).
      assert (S : sin th <> 0). { destruct (sin_acos_sq (Rabs (qdot a b)) ltac:(lra)) as [Q _]. fold th in Q. intros Z. rewrite Z in Q. nra. }
      replace ((1 - 0) * th) with th by ring. replace (0 * th) with 0 by ring. replace ((1 - 1) * th) with 0 by ring. replace (1 * th) with th by ring. rewrite sin_0.
      replace (sin th / sin th) with 1 by (field; exact S). replace (0 / sin th) with 0 by (field; exact S). unfold blend, qneg, qsmul, sgn. split; [apply Q_eq; unf; ring|].
      destruct (Rltb (qdot a b) 0); [right | left]; apply Q_eq; unf; ring.
    + rewrite !slerp_near by exact L. unfold blend, qneg, qsmul, sgn. split; [apply Q_eq; unf; ring|]. destruct (Rltb (qdot a b) 0); [right | left]; apply Q_eq; unf; ring.
Qed.
Theorem C100_isometry_partial a b t : rigid a -> rigid b -> 0 <= t <= 1 ->
  let r := iinterpolate a b t in let total := mdistance (irot a) (irot b) in
  itrans r = vadd (vscale (1 - t) (itrans a)) (vscale t (itrans b)) /\
  (cutoff < total -> rigid r /\ mdistance (irot a) (irot r) = t * total /\ mdistance (irot r) (irot b) = (1 - t) * total) /\
  iinterpolate a b 0 = a /\ iinterpolate a b 1 = b.
Proof.
  intros A B T. cbv zeta. destruct (qfrom_spec _ A) as [Ua Ea]. destruct (qfrom_spec _ B) as [Ub Eb].
  destruct (C100_quaternion_partial _ _ t Ua Ub T) as (F & _ & I0 & I1). rewrite Ea, Eb in F. cbv zeta in F.
  unfold iinterpolate. rewrite !ratio_in by lra. split; [cbn [itrans]; rewrite vinter; cbv zeta; rewrite ratio_in by exact T; reflexivity|]. split.
  - intros L. destruct (F L) as (U & D1 & D2). cbn [irot]. split; [apply qmat_rot; exact U|]. split; assumption.
  - split; apply iso_eq; cbn [irot itrans]; try (rewrite vinter; cbv zeta; rewrite ratio_in by lra; apply V3_eq; unf; ring).
    + rewrite I0. exact Ea.
    + destruct I1 as [-> | ->]; [exact Eb | rewrite qmat_neg; exact Eb].
Qed.
(** Between two rotations closer than the cutoff the result is not a rotation. *)
Theorem C100_rigid_refuted : exists a b, rigid a /\ rigid b /\ ~ rigid (iinterpolate a b (/ 2)).
Proof.
  pose proof eps_bounds as Ep. set (k := 1 - epsilon). set (s := sqrt (1 - k * k)).
  assert (P : 0 < 1 - k * k) by (unfold k; nra). assert (S : s * s = 1 - k * k) by (apply sqrt_sqrt; lra). assert (S0 : 0 < s) by (apply sqrt_lt_R0; exact P).
  assert (K : 0 < k < 1) by (unfold k; lra).
  exists iid, (mkI (qmat (mkQ k 0 0 s)) vzero).
  assert (Q0 : qfrom mid = mkQ 1 0 0 0).
  { unfold qfrom. unf. destruct (Rltb 0 (1 + 1 + 1)) eqn:T; [|apply Rltb_false in T; lra]. replace (1 + 1 + 1 + 1) with (2 * 2) by ring. rewrite sqrt_square by lra. apply Q_eq; unf; field. }
  assert (Q1 : qfrom (qmat (mkQ k 0 0 s)) = mkQ k 0 0 s).
  { assert (M : qmat (mkQ k 0 0 s) = mkM (2 * (k * k) - 1) (- (2 * (k * s))) 0 (2 * (k * s)) (2 * (k * k) - 1) 0 0 0 1) by (unfold qmat; apply M3_eq; unf; lra).
    rewrite M. unfold qfrom. unf. replace (2 * (k * k) - 1 + (2 * (k * k) - 1) + 1) with ((2 * k) * (2 * k) - 1) by ring.
    destruct (Rltb 0 (2 * k * (2 * k) - 1)) eqn:T; [|apply Rltb_false in T; unfold k in T; nra]. replace (2 * k * (2 * k) - 1 + 1) with ((2 * k) * (2 * k)) by ring. rewrite sqrt_square by lra. apply Q_eq; unf; field; lra. }
  split; [split; [mring | unf; ring]|]. split; [apply qmat_rot; unfold qunit; unf; lra|].
  intros [H _]. unfold iinterpolate, qinterpolate in H. cbn [irot itrans iid] in H. rewrite Q0, Q1 in H. rewrite !ratio_in in H by (rewrite ?ratio_in by lra; lra).
  assert (D : qdot (mkQ 1 0 0 0) (mkQ k 0 0 s) = k) by (unf; ring).
  rewrite slerp_near in H by (rewrite D, Rabs_right by lra; unfold k; lra). rewrite D in H.
  assert (G : sgn k = 1) by (unfold sgn; destruct (Rltb k 0) eqn:T; [apply Rltb_true in T; lra | reflexivity]). rewrite G in H.
  apply (f_equal m00) in H. unfold qmat, blend in H. unf.
  assert (E : k = 1); [|lra]. 
  assert (E : s * s * (k - 1) = 0) by nra. apply Rmult_integral in E. destruct E as [E|E]; [nra | lra].
Qed.
Print Assumptions C100_clamped. Print Assumptions C100_quaternion_partial. Print Assumptions C100_isometry_partial. Print Assumptions C100_rigid_refuted.
Example half_turn : let a := mkQ 1 0 0 0 in let b := mkQ 0 0 0 1 in qunit a /\ qunit b /\ cutoff < mdistance (qmat a) (qmat b) /\ mdistance (qmat a) (qmat b) = PI.
Proof.
  cbv zeta. pose proof eps_bounds. assert (A : qunit (mkQ 1 0 0 0)) by (unfold qunit; unf; ring). assert (B : qunit (mkQ 0 0 0 1)) by (unfold qunit; unf; ring).
  assert (D : Rabs (qdot (mkQ 1 0 0 0) (mkQ 0 0 0 1)) = 0) by (replace (qdot (mkQ 1 0 0 0) (mkQ 0 0 0 1)) with 0 by (unf; ring); apply Rabs_R0).
  repeat split; try assumption; [apply far_dot; [assumption|assumption|rewrite D; lra] | rewrite mdistance_quat, D, acos_0 by assumption; field].
Qed.
