(** The free robot of simple_se3_robot_model.hpp (C122). *)
From Coq Require Import String Reals Lra Lia List.
From Coquelicot Require Import Coquelicot.
From Verif Require Import Base MathModel TotpModel TotpVec MathProps EVecModel ELinModel EAngleProps EFitProps GeoModel GeoAlg GeoProps RotModel RotProps RotDistProps SeModel SeProps.
Import ListNotations.
Open Scope R_scope.

(** ** Where the robot is *)
Theorem C122_position r c name : let r' := se3_set_position r c in
  s3_config r' = c /\ se3_link_names r' = [s3_name r] /\ se3_link_transform r' (s3_name r) = Ok c /\ se3_link_transforms r' = [c] /\ se3_link_map r' = [(s3_name r, c)] /\
  (name <> s3_name r -> se3_link_transform r' name = Throw InvalidArgument) /\ s3_wp r' = s3_wp r /\ s3_wr r' = s3_wr r /\
  (forall wp wr, se3_make c wp wr name = mkSe3 c (Rabs wp) (Rabs wr) name).
Proof.
  cbv zeta. unfold se3_link_transform. cbn [se3_set_position s3_name s3_config]. rewrite String.eqb_refl. do 5 (split; [reflexivity|]). split; [|repeat split].
  intros N. apply String.eqb_neq in N. rewrite N. reflexivity.
Qed.
Print Assumptions C122_position.

(** ** Distance *)
Lemma se3_rotation a b : rigid a -> rigid b -> let d := mdistance (irot a) (irot b) in let q := qdistance (qfrom (irot a)) (qfrom (irot b)) in
  (cutoff < d -> q = d) /\ (d <= cutoff -> q = 0) /\ q = qdistance (qfrom (irot b)) (qfrom (irot a)) /\ 0 <= d.
Proof.
  intros A B. cbv zeta. destruct (qfrom_spec _ A) as [Ua Ea]. destruct (qfrom_spec _ B) as [Ub Eb]. destruct (C99_quaternion_partial _ _ _ Ua Ub Ub) as (Sy & _ & _ & _ & Far & Near). rewrite Ea, Eb in Far, Near.
  split; [exact Far|]. split; [exact Near|]. split; [exact Sy|]. apply (C99_matrix _ _ A B).
Qed.
Lemma cutoff_pos : 0 <= cutoff.
Proof. unfold cutoff. pose proof (acos_bound (1 - epsilon)). lra. Qed.
(** The distance of two poses, weighted, except that rotations no more than the cutoff (about 3e-8) apart count as the same.  So it is symmetric and
    never more than the true distance, nor less by more than the cutoff's share, and the triangle inequality holds up to twice that. *)
Theorem C122_distance_partial c0 wp wr name a b c : rigid a -> rigid b -> rigid c -> let r := se3_make c0 wp wr name in let d x y := weighted (Rabs wp) (Rabs wr) x y in
  0 <= se3_distance r a b /\ se3_distance r a b = se3_distance r b a /\ (cutoff < mdistance (irot a) (irot b) -> se3_distance r a b = d a b) /\
  d a b - Rabs wr * cutoff <= se3_distance r a b <= d a b /\
  se3_distance r a c <= se3_distance r a b + se3_distance r b c + 2 * (Rabs wr * cutoff) /\
  (wp <> 0 -> wr <> 0 -> (se3_distance r a b = 0 <-> itrans a = itrans b /\ mdistance (irot a) (irot b) <= cutoff)) /\
  se3_signed a b = (vsub (itrans b) (itrans a), if Rltb cutoff (mdistance (irot a) (irot b)) then mdistance (irot a) (irot b) else 0).
Proof.
  intros A B C. cbv zeta. set (r := se3_make c0 wp wr name). pose proof cutoff_pos as CP. pose proof (Rabs_pos wp) as WP. pose proof (Rabs_pos wr) as WR.
  assert (VN : forall x y, vdistance (itrans x) (itrans y) = vnorm (vsub (itrans y) (itrans x))) by reflexivity.
  assert (D : forall x y, rigid x -> rigid y -> exists q, q = qdistance (qfrom (irot x)) (qfrom (irot y)) /\ se3_distance r x y = Rabs wp * vnorm (vsub (itrans y) (itrans x)) + Rabs wr * q /\
    (cutoff < mdistance (irot x) (irot y) -> q = mdistance (irot x) (irot y)) /\ (mdistance (irot x) (irot y) <= cutoff -> q = 0) /\ 0 <= q /\ mdistance (irot x) (irot y) - cutoff <= q <= mdistance (irot x) (irot y)).
  { intros x y X Y. destruct (se3_rotation x y X Y) as (F & N & _ & P). eexists. split; [reflexivity|]. split; [unfold se3_distance; rewrite VN; cbn [r se3_make se3_set_position s3_wp s3_wr]; ring|]. split; [exact F|]. split; [exact N|].
    destruct (Rle_lt_dec (mdistance (irot x) (irot y)) cutoff) as [L|L]; [rewrite (N L); lra | rewrite (F L); lra]. }
  destruct (D a b A B) as (q1 & Q1 & E1 & F1 & N1 & P1 & B1). destruct (D b c B C) as (q2 & Q2 & E2 & F2 & N2 & P2 & B2). destruct (D a c A C) as (q3 & Q3 & E3 & F3 & N3 & P3 & B3).
  pose proof (vnorm_nonneg (vsub (itrans b) (itrans a))) as V1.
  split; [rewrite E1; apply Rplus_le_le_0_compat; apply Rmult_le_pos; assumption|]. split; [|split; [|split; [|split; [|split]]]].
  - destruct (D b a B A) as (q4 & Q4 & E4 & _). rewrite E1, E4, Q1, Q4. destruct (se3_rotation a b A B) as (_ & _ & -> & _). replace (vnorm (vsub (itrans a) (itrans b))) with (vnorm (vsub (itrans b) (itrans a))) by (unfold vnorm; f_equal; unf; ring). reflexivity.
  - intros L. rewrite E1, (F1 L). reflexivity.
  - rewrite E1. unfold weighted. destruct B1 as [L1 L2]. pose proof (Rmult_le_compat_l _ _ _ WR L1). pose proof (Rmult_le_compat_l _ _ _ WR L2). lra.
  - rewrite E1, E2, E3. assert (V : vnorm (vsub (itrans c) (itrans a)) <= vnorm (vsub (itrans b) (itrans a)) + vnorm (vsub (itrans c) (itrans b))).
    { replace (vsub (itrans c) (itrans a)) with (vadd (vsub (itrans b) (itrans a)) (vsub (itrans c) (itrans b))) by vring. apply vnorm_triangle. }
    pose proof (proj1 (proj2 (C99_metric _ _ _ A B C))) as T. assert (Q : q3 <= q1 + q2 + 2 * cutoff) by lra. pose proof (Rmult_le_compat_l _ _ _ WR Q) as X1. pose proof (Rmult_le_compat_l _ _ _ WP V) as X2. lra.
  - intros NP NR. apply Rabs_pos_lt in NP. apply Rabs_pos_lt in NR. rewrite E1. split.
    + intros H. pose proof (Rmult_le_pos _ _ WP V1). pose proof (Rmult_le_pos _ _ WR P1). assert (Z1 : vnorm (vsub (itrans b) (itrans a)) = 0) by (apply (Rmult_eq_reg_l (Rabs wp)); lra). assert (Z2 : q1 = 0) by (apply (Rmult_eq_reg_l (Rabs wr)); lra).
      apply vnorm_zero in Z1. split.
      * pose proof (f_equal vx Z1) as X. pose proof (f_equal vy Z1) as Y. pose proof (f_equal vz Z1) as Z. cbn in X, Y, Z. apply V3_eq; lra.
      * apply Rnot_lt_le. intros L. rewrite (F1 L) in Z2. lra.
    + intros [H L]. rewrite (N1 L), H. replace (vsub (itrans b) (itrans b)) with vzero by vring. rewrite (proj2 (vnorm_zero vzero) eq_refl). ring.
  - unfold se3_signed. f_equal. rewrite <- Q1. destruct (Rltb cutoff (mdistance (irot a) (irot b))) eqn:T; [apply Rltb_spec in T; apply F1; exact T | apply Rltb_false in T; apply N1; exact T].
Qed.
Print Assumptions C122_distance_partial.
(** Different rotations at distance zero, and two steps of distance zero that make one of positive distance. *)
Theorem C122_distance_refuted : exists r a b c, rigid a /\ rigid b /\ rigid c /\ 0 < s3_wp r /\ 0 < s3_wr r /\ se3_distance r a b = 0 /\ a <> b /\ se3_distance r a c > se3_distance r a b + se3_distance r b c.
Proof.
  destruct C99_quaternion_refuted as (a & b & c & A & B & C & Z & N & T).
  assert (QD : forall x y, qunit x -> qunit y -> qdistance (qfrom (qmat x)) (qfrom (qmat y)) = qdistance x y).
  { intros x y X Y. pose proof (qmat_rot x X) as RX. pose proof (qmat_rot y Y) as RY. destruct (qfrom_spec _ RX) as [Ux Ex]. destruct (qfrom_spec _ RY) as [Uy Ey].
    destruct (C99_quaternion_partial _ _ _ Ux Uy Uy) as (_ & _ & _ & _ & F1 & N1). destruct (C99_quaternion_partial _ _ _ X Y Y) as (_ & _ & _ & _ & F2 & N2). rewrite Ex, Ey in F1, N1.
    destruct (Rle_lt_dec (mdistance (qmat x) (qmat y)) cutoff) as [L|L]; [rewrite (N1 L), (N2 L) | rewrite (F1 L), (F2 L)]; reflexivity. }
  exists (mkSe3 iid 1 1 ""%string), (mkI (qmat a) vzero), (mkI (qmat b) vzero), (mkI (qmat c) vzero). split; [apply qmat_rot; exact A|]. split; [apply qmat_rot; exact B|]. split; [apply qmat_rot; exact C|]. cbn [s3_wp s3_wr]. split; [lra|]. split; [lra|].
  assert (E : forall x y, qunit x -> qunit y -> se3_distance (mkSe3 iid 1 1 ""%string) (mkI (qmat x) vzero) (mkI (qmat y) vzero) = qdistance x y).
  { intros x y X Y. unfold se3_distance. cbn [irot itrans s3_wp s3_wr]. rewrite (QD x y X Y). replace (vdistance vzero vzero) with 0; [ring|]. unfold vdistance. replace (vdot _ _) with 0 by (unf; ring). symmetry. apply sqrt_0. }
  rewrite !E by assumption. split; [exact Z|]. split; [|exact T]. intros H. apply N. exact (f_equal irot H).
Qed.
Print Assumptions C122_distance_refuted.

(** ** Interpolation *)
Theorem C122_interpolate_partial c0 wp wr name a b ratio : rigid a -> rigid b -> let r := se3_make c0 wp wr name in let t := Rmax 0 (Rmin 1 ratio) in let i := se3_interpolate a b ratio in let d x y := weighted (Rabs wp) (Rabs wr) x y in
  (cutoff < mdistance (irot a) (irot b) -> rigid i /\ d a i = t * d a b /\ d i b = (1 - t) * d a b) /\ itrans i = vadd (itrans a) (vscale t (vsub (itrans b) (itrans a))) /\
  (ratio <= 0 -> i = a) /\ (1 <= ratio -> i = b).
Proof.
  intros A B. cbv zeta. set (t := Rmax 0 (Rmin 1 ratio)). assert (T : 0 <= t <= 1) by (unfold t, Rmax, Rmin; destruct (Rle_dec 1 ratio); destruct (Rle_dec _ _); lra).
  assert (U : unit_ratio ratio = t) by (unfold unit_ratio, t, Rmax, Rmin; cases; destruct (Rle_dec 1 ratio); destruct (Rle_dec _ _); lra).
  assert (I : se3_interpolate a b ratio = iinterpolate a b t) by (unfold se3_interpolate, iinterpolate; rewrite U, (ratio_in t T); reflexivity).
  destruct (C100_isometry_partial a b t A B T) as (E1 & E2 & E3 & E4). cbv zeta in *. rewrite I.
  assert (N : forall s v, 0 <= s -> vnorm (vscale s v) = s * vnorm v). { intros s v S. unfold vnorm. replace (vdot (vscale s v) (vscale s v)) with (s * s * vdot v v) by (unf; ring). rewrite sqrt_mult by (try nra; unf; nra). rewrite sqrt_square by exact S. reflexivity. }
  split; [|split; [|split]].
  - intros L. destruct (E2 L) as (R & D1 & D2). split; [exact R|]. unfold weighted. rewrite D1, D2, E1. split.
    + replace (vsub (vadd (vscale (1 - t) (itrans a)) (vscale t (itrans b))) (itrans a)) with (vscale t (vsub (itrans b) (itrans a))) by vring. rewrite N by lra. ring.
    + replace (vsub (itrans b) (vadd (vscale (1 - t) (itrans a)) (vscale t (itrans b)))) with (vscale (1 - t) (vsub (itrans b) (itrans a))) by vring. rewrite N by lra. ring.
  - rewrite E1. vring.
  - intros L. replace t with 0 by (unfold t, Rmax, Rmin; destruct (Rle_dec 1 ratio); destruct (Rle_dec _ _); lra). exact E3.
  - intros L. replace t with 1 by (unfold t, Rmax, Rmin; destruct (Rle_dec 1 ratio); destruct (Rle_dec _ _); lra). exact E4.
Qed.
Print Assumptions C122_interpolate_partial.

(** ** Average *)
(** How well the rotation [m] agrees with a list of them: the sum of the squared cosines of half the angles. *)
Definition agrees (ts : list iso) (m : M3) : R := Rsum (map (fun t => cos (mdistance (irot t) m / 2) * cos (mdistance (irot t) m / 2)) ts).
Lemma agrees_form ts q : Forall rigid ts -> qunit q -> agrees ts (qmat q) = agreement (map (fun t => of_quat (qfrom (irot t))) ts) (repeat 1 (length ts)) (of_quat q).
Proof.
  intros F Q. unfold agrees. induction F as [|t ts R F IH]; [reflexivity|]. cbn [map length repeat agreement]. rewrite <- IH. unfold Rsum. cbn [map fold_right]. f_equal.
  destruct (qfrom_spec _ R) as [U E]. rewrite <- E at 1 2. rewrite mdistance_quat by assumption. replace (2 * acos (Rabs (qdot (qfrom (irot t)) q)) / 2) with (acos (Rabs (qdot (qfrom (irot t)) q))) by field.
  pose proof (unit_dot _ _ U Q). rewrite cos_acos by lra. rewrite abs_sq. unfold dot, of_quat. cbn. unf. ring.
Qed.
Lemma of_quat_norm q : qunit q <-> norm 4 (of_quat q) = 1.
Proof.
  assert (D : dot 4 (of_quat q) (of_quat q) = qdot q q) by (unfold dot, of_quat; cbn; unf; ring). unfold norm, qunit. rewrite D. split; intros H; [rewrite H; apply sqrt_1|].
  rewrite <- (sqrt_sqrt (qdot q q)) by (unf; nra). rewrite H. ring.
Qed.
(** The average of rigid poses, whatever eigenvectors the solver picks: a rigid pose, at the mean of the positions, with the rotation that agrees best.
    Of none, the identity. *)
Theorem C122_average dbg solver cs : eigen_contract solver -> Forall rigid cs ->
  (cs = [] -> se3_average dbg solver cs = Ok iid) /\
  (cs <> [] -> exists m, se3_average dbg solver cs = Ok m /\ rigid m /\
    (let n := INR (length cs) in itrans m = mkV (Rsum (map (fun t => vx (itrans t)) cs) / n) (Rsum (map (fun t => vy (itrans t)) cs) / n) (Rsum (map (fun t => vz (itrans t)) cs) / n)) /\
    forall x, rotation x -> agrees cs x <= agrees cs (irot m)).
Proof.
  intros EC F. split; [intros ->; reflexivity|]. intros NE. destruct cs as [|t0 ts]; [contradiction|]. cbn [se3_average]. unfold iso_average, cassert. cbn [length Nat.ltb Nat.leb Nat.eqb orb andb negb]. rewrite !andb_false_r. destruct ts as [|t1 ts].
  - exists t0. inversion F as [|? ? R _]; subst. split; [reflexivity|]. split; [exact R|]. split.
    + cbv zeta. unfold Rsum. cbn [map fold_right length INR]. apply V3_eq; unf; field.
    + intros x X. unfold agrees, Rsum. cbn [map fold_right]. rewrite (proj2 (proj2 (proj2 (proj2 (C99_matrix _ _ R R)))) eq_refl). replace (0 / 2) with 0 by field. rewrite cos_0. pose proof (COS_bound (mdistance (irot t0) x / 2)). nra.
  - set (cs := t0 :: t1 :: ts) in *.
    destruct (C107_mean dbg (map (fun t => of_v3 (itrans t)) cs)) as (v & EV & MV); [discriminate|]. rewrite EV. cbn [obind].
    destruct (C112_average_partial dbg solver (map (fun t => of_quat (qfrom (irot t))) cs) []) as (q & EQ & NQ & MQ); [exact EC | discriminate | | left; reflexivity|].
    { rewrite Forall_forall in F |- *. intros x X. apply in_map_iff in X. destruct X as (t & <- & T). apply of_quat_norm. apply qfrom_spec. apply F. exact T. }
    rewrite EQ. cbn [obind]. eexists. split; [reflexivity|]. cbn [irot itrans]. set (q' := to_quat q).
    assert (VQ : veq 4 (of_quat q') q) by (intros i I; destruct i as [|[|[|[|i]]]]; try reflexivity; lia).
    assert (DQ : dot 4 (of_quat q') (of_quat q') = dot 4 q q) by (unfold dot, q', of_quat, to_quat; cbn; ring).
    assert (UQ : qunit q') by (apply of_quat_norm; unfold norm in *; rewrite DQ; exact NQ).
    split; [apply qmat_rot; exact UQ|]. split; [cbv zeta; rewrite !MV, !map_length, !map_map; reflexivity|].
    intros x X. destruct (qfrom_spec x X) as [Ux Ex]. rewrite <- Ex. rewrite !agrees_form by assumption. unfold weights_of in MQ. rewrite map_length in MQ.
    pose proof (MQ (of_quat (qfrom x)) (proj1 (of_quat_norm _) Ux)) as L. eapply Rle_trans; [exact L|]. right. clear. generalize (map (fun t => of_quat (qfrom (irot t))) cs) as qs. intros qs. generalize (repeat 1 (length cs)) as ws. induction qs as [|y qs IH]; intros ws; [reflexivity|]. destruct ws as [|w ws]; [reflexivity|]. cbn [agreement]. rewrite IH. f_equal.
Qed.
Print Assumptions C122_average.

(** ** Jacobian *)
Lemma derive_eq (f : R -> R) (x d1 d2 : R) : is_derive f x d1 -> d1 = d2 -> is_derive f x d2.
Proof. intros H <-. exact H. Qed.
(** The Jacobian turns a velocity of the body, given in its own frame, into that of a point of it: along any way of moving that starts at the identity
    with linear velocity [v] and angular velocity [w], and so along ExpTwist of (v, w). *)
Theorem C122_jacobian r name p pw : (name <> s3_name r -> se3_jacobian r name p pw = Throw InvalidArgument) /\
  exists jv jw, se3_jacobian r (s3_name r) p pw = Ok (jv, jw) /\
    (forall (f : R -> iso) v w, mderiv (fun s => irot (f s)) 0 (skew w) -> vderiv (fun s => itrans (f s)) 0 v ->
      vderiv (fun s => iapp (imul (s3_config r) (f s)) p) 0 (vadd (mapp jv v) (mapp jw w))) /\
    (forall dbg t, resolved t -> exists f : R -> iso, (forall s, exp_twist dbg t s = Ok (f s)) /\ vderiv (fun s => iapp (imul (s3_config r) (f s)) p) 0 (vadd (mapp jv (tv t)) (mapp jw (tw t)))).
Proof.
  split; [intros N; unfold se3_jacobian; apply String.eqb_neq in N; rewrite N; reflexivity|]. unfold se3_jacobian. rewrite String.eqb_refl. eexists _, _. split; [reflexivity|].
  assert (G : forall (f : R -> iso) v w, mderiv (fun s => irot (f s)) 0 (skew w) -> vderiv (fun s => itrans (f s)) 0 v ->
      vderiv (fun s => iapp (imul (s3_config r) (f s)) p) 0 (vadd (mapp (mmul (irot (s3_config r)) mid) v) (mapp (mmul (irot (s3_config r)) (mscale (skew p) (-1))) w))).
  { intros f v w (M0 & M1 & M2 & M3 & M4 & M5 & M6 & M7 & M8) (V0 & V1 & V2). destruct (s3_config r) as [[a00 a01 a02 a10 a11 a12 a20 a21 a22] [t0 t1 t2]]. destruct p as [px py pz]. destruct v as [v0 v1 v2]. destruct w as [w0 w1 w2]. unfold vderiv, iapp, imul. unf. cbn in *.
    assert (L : forall a b c t g0 g1 g2 g3 g4 g5 g6 g7 g8 u0 u1 u2 dg0 dg1 dg2 dg3 dg4 dg5 dg6 dg7 dg8 du0 du1 du2, is_derive g0 0 dg0 -> is_derive g1 0 dg1 -> is_derive g2 0 dg2 -> is_derive g3 0 dg3 -> is_derive g4 0 dg4 -> is_derive g5 0 dg5 -> is_derive g6 0 dg6 -> is_derive g7 0 dg7 -> is_derive g8 0 dg8 -> is_derive u0 0 du0 -> is_derive u1 0 du1 -> is_derive u2 0 du2 ->
      is_derive (fun s : R => (a * g0 s + b * g3 s + c * g6 s) * px + (a * g1 s + b * g4 s + c * g7 s) * py + (a * g2 s + b * g5 s + c * g8 s) * pz + (a * u0 s + b * u1 s + c * u2 s + t)) 0
        ((a * dg0 + b * dg3 + c * dg6) * px + (a * dg1 + b * dg4 + c * dg7) * py + (a * dg2 + b * dg5 + c * dg8) * pz + (a * du0 + b * du1 + c * du2))).
    { intros. auto_derive; [repeat split; eexists; eassumption|]. repeat match goal with H : is_derive ?g 0 ?d |- _ => apply is_derive_unique in H; change (Derive (fun x : R => g x) 0) with (Derive g 0); rewrite H; clear H end. ring. }
    split; [|split]; (eapply derive_eq; [eapply L; eassumption|]); ring. }
  split; [exact G|]. intros dbg t H. destruct (C97_exponential_partial dbg t H) as (f & E & F0 & _ & _ & D). exists f. split; [exact E|]. destruct (D 0) as [DM DV]. rewrite F0 in DM, DV. cbn [irot iid] in DM, DV. rewrite mmul_1_l in DM. replace (mapp mid (tv t)) with (tv t) in DV by vring. apply G; assumption.
Qed.
Print Assumptions C122_jacobian.
(** Two poses half a turn and five units apart, whose distance is divided as it should be. *)
Example se3_case : let a := iid in let b := mkI (qmat (mkQ 0 0 0 1)) (mkV 3 4 0) in rigid a /\ rigid b /\ cutoff < mdistance (irot a) (irot b) /\ se3_distance (se3_make a 2 (-3) "body") a b = 10 + 3 * PI.
Proof.
  cbv zeta. destruct half_turn as (U & V & L & E). assert (M : qmat (mkQ 1 0 0 0) = mid) by (unfold qmat; mring). rewrite M in L, E.
  assert (RA : rigid iid) by (rewrite <- M in *; split; cbn [irot iid]; [mring | unf; ring]). assert (RB : rigid (mkI (qmat (mkQ 0 0 0 1)) (mkV 3 4 0))) by (apply qmat_rot; exact V).
  split; [exact RA|]. split; [exact RB|]. split; [exact L|]. destruct (C122_distance_partial iid 2 (-3) "body" _ _ _ RA RB RA) as (_ & _ & D & _). rewrite (D L). unfold weighted. cbn [irot itrans iid] in *. rewrite E.
  replace (vnorm (vsub (mkV 3 4 0) vzero)) with 5; [rewrite (Rabs_right 2), (Rabs_left (-3)) by lra; lra|]. unfold vnorm. replace (vdot _ _) with (5 * 5) by (unf; ring). symmetry. apply sqrt_square. lra.
Qed.
