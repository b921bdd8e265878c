(** Geometry of the circular blend built by [blend]: tangent to both legs at equal distance from the corner, orthonormal frame,
    deviation from the corner and from the legs. *)
From Coq Require Import Reals Lra Psatz.
From Verif Require Import Base MathModel TotpModel TotpVec.
Open Scope R_scope.

Lemma tol_pos : 0 < tol.
Proof. unfold tol. lra. Qed.

(** Everything the constructor establishes about a blend that is not degenerate. *)
Record arc_of (n : nat) (a m b : vec) (dev : R) (sd ed : vec) (h d r : R) (ctr x : vec) : Prop := {
  ao_sd : veq n sd (normalized n (vsub m a));
  ao_ed : veq n ed (normalized n (vsub b m));
  ao_sd1 : dot n sd sd = 1;
  ao_ed1 : dot n ed ed = 1;
  ao_dot : dot n sd ed = cos (2 * h);
  ao_h : 0 < h < PI / 2;
  ao_d : 0 < d;
  ao_d1 : d <= norm n (vsub m a);
  ao_d2 : d <= norm n (vsub b m);
  ao_dev : d * (1 - cos h) <= dev * sin h;
  ao_r : r = d * cos h / sin h;
  ao_ctr : forall i, ctr i = m i + d / (2 * (sin h * sin h)) * (ed i - sd i);
  ao_x : forall i, r * x i = - d * sd i - d / (2 * (sin h * sin h)) * (ed i - sd i) }.

Lemma blend_cases n a m b dev g :
  0 < dev -> blend n a m b dev = Some g ->
  g = degenerate m \/
  exists ed h d r ctr x,
    g = Arc (2 * h * r) r ctr x (normalized n (vsub m a)) /\
    tol <= norm n (vsub m a) /\ tol <= norm n (vsub b m) /\
    arc_of n a m b dev (normalized n (vsub m a)) ed h d r ctr x.
Proof.
  intros Hdev H. unfold blend in H.
  destruct (Rltb (norm n (vsub m a)) tol) eqn:E1; cbn [orb] in H.
  { injection H as <-. left. reflexivity. }
  destruct (Rltb (norm n (vsub b m)) tol) eqn:E2.
  { injection H as <-. left. reflexivity. }
  apply Rltb_false in E1, E2. pose proof tol_pos as TP.
  cbv zeta in H.
  set (sd := normalized n (vsub m a)) in *. set (ed := normalized n (vsub b m)) in *.
  destruct (Rltb (norm n (vsub sd ed)) tol) eqn:E3.
  { injection H as <-. left. reflexivity. }
  apply Rltb_false in E3. right.
  assert (S1 : norm n sd = 1) by (apply normalized_unit; lra).
  assert (S2 : norm n ed = 1) by (apply normalized_unit; lra).
  assert (D1 : dot n sd sd = 1) by (rewrite <- norm_sq, S1; ring).
  assert (D2 : dot n ed ed = 1) by (rewrite <- norm_sq, S2; ring).
  set (c := dot n sd ed) in *.
  assert (Cb : -1 <= c <= 1).
  { pose proof (cauchy n sd ed) as C. rewrite S1, S2 in C. fold c in C.
    pose proof (Rle_abs c). pose proof (Rle_abs (- c)). rewrite Rabs_Ropp in *. lra. }
  assert (Cd : dot n (vsub ed sd) (vsub ed sd) = 2 - 2 * c).
  { rewrite (dot_ext n (vsub ed sd) (fun i => (-1) * sd i + 1 * ed i) (vsub ed sd) (fun i => (-1) * sd i + 1 * ed i))
      by (intros i _; unfold vsub; ring).
    rewrite dot_comb. fold c. rewrite D1, D2. ring. }
  assert (C1 : c < 1).
  { rewrite norm_sub_sym in E3. pose proof (norm_sq n (vsub ed sd)) as Q. rewrite Cd in Q. nra. }
  set (h := / 2 * acos c) in *.
  destruct (Reqb (cos h) 0) eqn:E4; [discriminate|]. apply Reqb_false in E4.
  assert (A2 : acos c = 2 * h) by (unfold h; field).
  pose proof (acos_bound c) as AB.
  assert (Cc : cos (2 * h) = c) by (rewrite <- A2; apply cos_acos; lra).
  assert (H0 : 0 <= h <= PI / 2) by (unfold h; lra).
  assert (Hh0 : h <> 0).
  { intros Z. rewrite Z, Rmult_0_r, cos_0 in Cc. lra. }
  assert (Hh1 : h <> PI / 2).
  { intros Z. apply E4. rewrite Z. apply cos_PI2. }
  assert (Hh : 0 < h < PI / 2) by lra.
  assert (Sp : 0 < sin h) by (apply sin_gt_0; lra).
  assert (Cp : 0 < cos h) by (apply cos_gt_0; lra).
  pose proof (sin2_cos2 h) as SC. unfold Rsqr in SC.
  assert (C2 : c = 1 - 2 * (sin h * sin h)) by (rewrite <- Cc, cos_2a_sin; ring).
  assert (Ck : cos h < 1) by nra.
  assert (Nd : norm n (vsub ed sd) = 2 * sin h).
  { apply norm_unique; [lra|]. rewrite Cd, C2. ring. }
  set (lim := dev * sin h / (1 - cos h)) in *.
  set (d := Rmin (Rmin (norm n (vsub a m)) (norm n (vsub b m))) lim) in *.
  assert (Lp : 0 < lim).
  { unfold lim. apply Rdiv_lt_0_compat; [apply Rmult_lt_0_compat; lra|lra]. }
  assert (Dl : d <= lim) by apply Rmin_r.
  assert (Da : d <= norm n (vsub m a)).
  { rewrite (norm_sub_sym n m a). eapply Rle_trans; [apply Rmin_l|apply Rmin_l]. }
  assert (Db : d <= norm n (vsub b m)).
  { eapply Rle_trans; [apply Rmin_l|apply Rmin_r]. }
  assert (Dp : 0 < d).
  { unfold d. apply Rmin_glb_lt; [apply Rmin_glb_lt; [rewrite norm_sub_sym|]; lra|exact Lp]. }
  assert (Rr : d / tan h = d * cos h / sin h) by (unfold tan; field; lra).
  rewrite Rr in H. set (r := d * cos h / sin h) in *.
  assert (Rp : 0 < r).
  { unfold r. apply Rdiv_lt_0_compat; [apply Rmult_lt_0_compat; lra|lra]. }
  rewrite (normalized_pos n (vsub ed sd)) in H by lra.
  rewrite Nd in H.
  set (ctr := vadd m (fun i => vsub ed sd i / (2 * sin h) * r / cos h)) in *.
  set (v := vsub (vsub m (vscale d sd)) ctr) in *.
  set (k := d / (2 * (sin h * sin h))).
  assert (Ec : forall i, ctr i = m i + k * (ed i - sd i)).
  { intros i. unfold ctr, vadd, vsub, k, r. field. lra. }
  assert (Ev : forall i, v i = - d * sd i - k * (ed i - sd i)).
  { intros i. unfold v, vsub, vscale. rewrite Ec. ring. }
  assert (Nv : norm n v = r).
  { apply norm_unique; [lra|].
    rewrite (dot_ext n v (fun i => (k - d) * sd i + (- k) * ed i) v (fun i => (k - d) * sd i + (- k) * ed i))
      by (intros i _; rewrite Ev; ring).
    rewrite dot_comb. fold c. rewrite D1, D2, C2. unfold k, r.
    assert (Q : cos h * cos h = 1 - sin h * sin h) by lra.
    replace (d * cos h / sin h * (d * cos h / sin h)) with (d * d * (cos h * cos h) / (sin h * sin h)) by (field; lra).
    rewrite Q. field. lra. }
  rewrite (normalized_pos n v) in H by lra. rewrite Nv in H.
  injection H as <-.
  exists ed, h, d, r, ctr, (fun i => v i / r). rewrite <- A2.
  split; [reflexivity|]. split; [exact E1|]. split; [exact E2|].
  split; try assumption; try reflexivity.
  - intros i _; reflexivity.
  - intros i _; reflexivity.
  - fold c. rewrite Cc. reflexivity.
  - assert (d * (1 - cos h) <= lim * (1 - cos h)) by (apply Rmult_le_compat_r; lra).
    unfold lim in H at 1. replace (dev * sin h / (1 - cos h) * (1 - cos h)) with (dev * sin h) in H by (field; lra). exact H.
  - intros i. rewrite <- Ev. field. lra.
Qed.

Section ArcFacts.
Variables (n : nat) (a m b : vec) (dev : R) (sd ed : vec) (h d r : R) (ctr x : vec).
Hypothesis A : arc_of n a m b dev sd ed h d r ctr x.

Lemma arc_trig : 0 < sin h /\ 0 < cos h /\ sin h * sin h + cos h * cos h = 1 /\ cos (2 * h) = 1 - 2 * (sin h * sin h) /\
  sin (2 * h) = 2 * sin h * cos h /\ cos h < 1.
Proof.
  pose proof (ao_h _ _ _ _ _ _ _ _ _ _ _ _ A) as Hh.
  assert (Sp : 0 < sin h) by (apply sin_gt_0; lra).
  assert (Cp : 0 < cos h) by (apply cos_gt_0; lra).
  pose proof (sin2_cos2 h) as SC. unfold Rsqr in SC.
  repeat split; auto; try lra.
  - rewrite cos_2a_sin. ring.
  - apply sin_2a.
  - nra.
Qed.
Lemma arc_r_pos : 0 < r.
Proof.
  destruct arc_trig as (Sp & Cp & _). rewrite (ao_r _ _ _ _ _ _ _ _ _ _ _ _ A).
  pose proof (ao_d _ _ _ _ _ _ _ _ _ _ _ _ A).
  apply Rdiv_lt_0_compat; [apply Rmult_lt_0_compat; lra|lra].
Qed.
Lemma arc_len_pos : 0 < 2 * h * r.
Proof.
  pose proof (ao_h _ _ _ _ _ _ _ _ _ _ _ _ A). pose proof arc_r_pos. apply Rmult_lt_0_compat; lra.
Qed.
(** x_ in terms of the two directions. *)
Lemma arc_x i : x i = (- d * sd i - d / (2 * (sin h * sin h)) * (ed i - sd i)) / r.
Proof. pose proof arc_r_pos. rewrite <- (ao_x _ _ _ _ _ _ _ _ _ _ _ _ A). field. lra. Qed.
Lemma arc_xsd : dot n x sd = 0.
Proof.
  destruct arc_trig as (Sp & Cp & SC & C2 & S2 & Cl). pose proof arc_r_pos as Rp.
  set (k := d / (2 * (sin h * sin h))).
  rewrite (dot_ext n x (fun i => ((k - d) / r) * sd i + (- k / r) * ed i) sd sd)
    by (try apply veq_refl; intros i _; rewrite arc_x; fold k; field; lra).
  rewrite dot_comm, dot_comb_r, (ao_sd1 _ _ _ _ _ _ _ _ _ _ _ _ A), (ao_dot _ _ _ _ _ _ _ _ _ _ _ _ A), C2.
  unfold k. field. lra.
Qed.
Lemma arc_xx : dot n x x = 1.
Proof.
  destruct arc_trig as (Sp & Cp & SC & C2 & S2 & Cl). pose proof arc_r_pos as Rp.
  pose proof (ao_d _ _ _ _ _ _ _ _ _ _ _ _ A) as Dp.
  set (k := d / (2 * (sin h * sin h))).
  assert (E : veq n x (fun i => ((k - d) / r) * sd i + (- k / r) * ed i))
    by (intros i _; rewrite arc_x; fold k; field; lra).
  rewrite (dot_ext n x _ x _ E E), dot_comb.
  rewrite (ao_sd1 _ _ _ _ _ _ _ _ _ _ _ _ A), (ao_dot _ _ _ _ _ _ _ _ _ _ _ _ A), (ao_ed1 _ _ _ _ _ _ _ _ _ _ _ _ A), C2.
  unfold k. rewrite (ao_r _ _ _ _ _ _ _ _ _ _ _ _ A).
  assert (Q : cos h * cos h = 1 - sin h * sin h) by lra.
  set (s := sin h) in *. set (c := cos h) in *.
  assert (Pz : 0 < d * d * (c * c)) by (repeat apply Rmult_lt_0_compat; lra).
  apply (Rmult_eq_reg_r (d * d * (c * c))); [|lra].
  transitivity (d * d * (1 - s * s)); [|rewrite <- Q; ring].
  field. repeat split; lra.
Qed.

(** Where the arc starts and ends, and its direction there. *)
Lemma arc_start i : ctr i + r * (x i * cos (0 / r) + sd i * sin (0 / r)) = m i - d * sd i.
Proof.
  destruct arc_trig as (Sp & Cp & SC & C2 & S2 & Cl). pose proof arc_r_pos as Rp.
  replace (0 / r) with 0 by (field; lra). rewrite cos_0, sin_0, (ao_ctr _ _ _ _ _ _ _ _ _ _ _ _ A).
  pose proof (ao_x _ _ _ _ _ _ _ _ _ _ _ _ A i). lra.
Qed.
(** The radius vector at the end of the arc. *)
Lemma arc_xend i : r * (x i * cos (2 * h) + sd i * sin (2 * h)) = d * ed i - d / (2 * (sin h * sin h)) * (ed i - sd i).
Proof.
  destruct arc_trig as (Sp & Cp & SC & C2 & S2 & Cl). pose proof arc_r_pos as Rp.
  transitivity (r * x i * cos (2 * h) + r * sd i * sin (2 * h)); [ring|].
  rewrite (ao_x _ _ _ _ _ _ _ _ _ _ _ _ A), C2, S2, (ao_r _ _ _ _ _ _ _ _ _ _ _ _ A).
  assert (Q : cos h * cos h = 1 - sin h * sin h) by lra.
  transitivity ((- d * sd i - d / (2 * (sin h * sin h)) * (ed i - sd i)) * (1 - 2 * (sin h * sin h)) + 2 * d * (cos h * cos h) * sd i).
  - field. lra.
  - rewrite Q. field. lra.
Qed.
Lemma arc_end i : ctr i + r * (x i * cos (2 * h * r / r) + sd i * sin (2 * h * r / r)) = m i + d * ed i.
Proof.
  pose proof arc_r_pos as Rp.
  replace (2 * h * r / r) with (2 * h) by (field; lra).
  rewrite arc_xend, (ao_ctr _ _ _ _ _ _ _ _ _ _ _ _ A). ring.
Qed.
Lemma arc_tangent_end i : - x i * sin (2 * h) + sd i * cos (2 * h) = ed i.
Proof.
  destruct arc_trig as (Sp & Cp & SC & C2 & S2 & Cl). pose proof arc_r_pos as Rp.
  pose proof (ao_d _ _ _ _ _ _ _ _ _ _ _ _ A) as Dp.
  apply (Rmult_eq_reg_l r); [|lra].
  transitivity (- (r * x i) * sin (2 * h) + r * sd i * cos (2 * h)); [ring|].
  rewrite (ao_x _ _ _ _ _ _ _ _ _ _ _ _ A), C2, S2, (ao_r _ _ _ _ _ _ _ _ _ _ _ _ A).
  field. lra.
Qed.

(** Every point of the arc is within the allowed deviation of one of the two legs. *)
Lemma arc_near_first phi :
  0 <= phi <= h ->
  exists t, 0 <= t <= norm n (vsub m a) /\
    norm n (fun i => ctr i + r * (x i * cos phi + sd i * sin phi) - (m i - t * sd i)) <= dev.
Proof.
  intros Hp. destruct arc_trig as (Sp & Cp & SC & C2 & S2 & Cl). pose proof arc_r_pos as Rp.
  pose proof (ao_h _ _ _ _ _ _ _ _ _ _ _ _ A) as Hh. pose proof (ao_d _ _ _ _ _ _ _ _ _ _ _ _ A) as Dp.
  assert (P0 : 0 <= sin phi) by (apply sin_ge_0; lra).
  assert (P1 : sin phi <= sin h) by (apply sin_incr_1; lra).
  assert (P2 : cos h <= cos phi) by (apply cos_decr_1; lra).
  pose proof (COS_bound phi) as P3.
  assert (R1 : r * sin phi <= d).
  { apply Rle_trans with (r * sin h); [apply Rmult_le_compat_l; lra|].
    rewrite (ao_r _ _ _ _ _ _ _ _ _ _ _ _ A). replace (d * cos h / sin h * sin h) with (d * cos h) by (field; lra). nra. }
  exists (d - r * sin phi). split.
  - split; [lra|]. pose proof (ao_d1 _ _ _ _ _ _ _ _ _ _ _ _ A). assert (0 <= r * sin phi) by (apply Rmult_le_pos; lra). lra.
  - rewrite (norm_ext n _ (fun i => (- (r * (1 - cos phi))) * x i)).
    + rewrite norm_scale, Rabs_Ropp, Rabs_pos_eq by (apply Rmult_le_pos; lra).
      assert (N : norm n x = 1) by (apply norm_unique; [lra|rewrite arc_xx; ring]). rewrite N, Rmult_1_r.
      apply Rle_trans with (r * (1 - cos h)); [apply Rmult_le_compat_l; lra|].
      pose proof (ao_dev _ _ _ _ _ _ _ _ _ _ _ _ A) as DV. rewrite (ao_r _ _ _ _ _ _ _ _ _ _ _ _ A).
      replace (d * cos h / sin h * (1 - cos h)) with (cos h * (d * (1 - cos h)) / sin h) by (field; lra).
      apply (Rmult_le_reg_r (sin h)); [lra|].
      replace (cos h * (d * (1 - cos h)) / sin h * sin h) with (cos h * (d * (1 - cos h))) by (field; lra).
      assert (0 <= d * (1 - cos h)) by (apply Rmult_le_pos; lra). nra.
    + intros i _. pose proof (ao_x _ _ _ _ _ _ _ _ _ _ _ _ A i) as X. rewrite (ao_ctr _ _ _ _ _ _ _ _ _ _ _ _ A). lra.
Qed.
Lemma arc_near_second phi :
  h <= phi <= 2 * h ->
  exists t, 0 <= t <= norm n (vsub b m) /\
    norm n (fun i => ctr i + r * (x i * cos phi + sd i * sin phi) - (m i + t * ed i)) <= dev.
Proof.
  intros Hp. destruct arc_trig as (Sp & Cp & SC & C2 & S2 & Cl). pose proof arc_r_pos as Rp.
  pose proof (ao_h _ _ _ _ _ _ _ _ _ _ _ _ A) as Hh. pose proof (ao_d _ _ _ _ _ _ _ _ _ _ _ _ A) as Dp.
  set (psi := 2 * h - phi). assert (Hs : 0 <= psi <= h) by (unfold psi; lra).
  assert (P0 : 0 <= sin psi) by (apply sin_ge_0; lra).
  assert (P1 : sin psi <= sin h) by (apply sin_incr_1; lra).
  assert (P2 : cos h <= cos psi) by (apply cos_decr_1; lra).
  pose proof (COS_bound psi) as P3.
  assert (R1 : r * sin psi <= d).
  { apply Rle_trans with (r * sin h); [apply Rmult_le_compat_l; lra|].
    rewrite (ao_r _ _ _ _ _ _ _ _ _ _ _ _ A). replace (d * cos h / sin h * sin h) with (d * cos h) by (field; lra). nra. }
  exists (d - r * sin psi). split.
  - split; [lra|]. pose proof (ao_d2 _ _ _ _ _ _ _ _ _ _ _ _ A). assert (0 <= r * sin psi) by (apply Rmult_le_pos; lra). lra.
  - set (xe := fun i => x i * cos (2 * h) + sd i * sin (2 * h)).
    assert (XE : dot n xe xe = 1).
    { rewrite (dot_ext n xe (fun i => cos (2 * h) * x i + sin (2 * h) * sd i) xe (fun i => cos (2 * h) * x i + sin (2 * h) * sd i))
        by (intros i _; unfold xe; ring).
      rewrite dot_comb, arc_xx, arc_xsd, (ao_sd1 _ _ _ _ _ _ _ _ _ _ _ _ A).
      pose proof (sin2_cos2 (2 * h)) as Q. unfold Rsqr in Q. lra. }
    rewrite (norm_ext n _ (fun i => (- (r * (1 - cos psi))) * xe i)).
    + rewrite norm_scale, Rabs_Ropp, Rabs_pos_eq by (apply Rmult_le_pos; lra).
      assert (N : norm n xe = 1) by (apply norm_unique; [lra|rewrite XE; ring]). rewrite N, Rmult_1_r.
      apply Rle_trans with (r * (1 - cos h)); [apply Rmult_le_compat_l; lra|].
      pose proof (ao_dev _ _ _ _ _ _ _ _ _ _ _ _ A) as DV. rewrite (ao_r _ _ _ _ _ _ _ _ _ _ _ _ A).
      replace (d * cos h / sin h * (1 - cos h)) with (cos h * (d * (1 - cos h)) / sin h) by (field; lra).
      apply (Rmult_le_reg_r (sin h)); [lra|].
      replace (cos h * (d * (1 - cos h)) / sin h * sin h) with (cos h * (d * (1 - cos h))) by (field; lra).
      assert (0 <= d * (1 - cos h)) by (apply Rmult_le_pos; lra). nra.
    + intros i _. replace phi with (2 * h - psi) by (unfold psi; ring).
      rewrite cos_minus, sin_minus.
      pose proof (arc_xend i) as X. pose proof (arc_tangent_end i) as T. rewrite (ao_ctr _ _ _ _ _ _ _ _ _ _ _ _ A).
      unfold xe.
      replace (x i * (cos (2 * h) * cos psi + sin (2 * h) * sin psi) + sd i * (sin (2 * h) * cos psi - cos (2 * h) * sin psi))
        with (cos psi * (x i * cos (2 * h) + sd i * sin (2 * h)) - sin psi * (- x i * sin (2 * h) + sd i * cos (2 * h))) by ring.
      rewrite T.
      transitivity (d / (2 * (sin h * sin h)) * (ed i - sd i) + cos psi * (r * (x i * cos (2 * h) + sd i * sin (2 * h))) - d * ed i).
      { ring. }
      rewrite X. transitivity (- (1 - cos psi) * (r * (x i * cos (2 * h) + sd i * sin (2 * h)))); [rewrite X; ring|ring].
Qed.
(** The middle of the arc is within the allowed deviation of the corner. *)
Lemma arc_near_corner :
  norm n (fun i => ctr i + r * (x i * cos h + sd i * sin h) - m i) <= dev.
Proof.
  destruct arc_trig as (Sp & Cp & SC & C2 & S2 & Cl). pose proof arc_r_pos as Rp.
  pose proof (ao_d _ _ _ _ _ _ _ _ _ _ _ _ A) as Dp.
  set (k := d / (2 * (sin h * sin h))).
  rewrite (norm_ext n _ (fun i => (k * (1 - cos h)) * (vsub ed sd i))).
  - assert (Nd : norm n (vsub ed sd) = 2 * sin h).
    { apply norm_unique; [lra|].
      rewrite (dot_ext n (vsub ed sd) (fun i => (-1) * sd i + 1 * ed i) (vsub ed sd) (fun i => (-1) * sd i + 1 * ed i))
        by (intros i _; unfold vsub; ring).
      rewrite dot_comb, (ao_sd1 _ _ _ _ _ _ _ _ _ _ _ _ A), (ao_dot _ _ _ _ _ _ _ _ _ _ _ _ A), (ao_ed1 _ _ _ _ _ _ _ _ _ _ _ _ A), C2.
      ring. }
    assert (Kp : 0 < k) by (unfold k; apply Rdiv_lt_0_compat; nra).
    rewrite norm_scale, Nd, Rabs_pos_eq by (apply Rmult_le_pos; lra).
    unfold k. replace (d / (2 * (sin h * sin h)) * (1 - cos h) * (2 * sin h)) with (d * (1 - cos h) / sin h) by (field; lra).
    apply (Rmult_le_reg_r (sin h)); [lra|].
    replace (d * (1 - cos h) / sin h * sin h) with (d * (1 - cos h)) by (field; lra).
    apply (ao_dev _ _ _ _ _ _ _ _ _ _ _ _ A).
  - intros i _. unfold vsub. rewrite (ao_ctr _ _ _ _ _ _ _ _ _ _ _ _ A). fold k.
    transitivity (k * (ed i - sd i) + (r * x i) * cos h + r * sin h * sd i); [ring|].
    rewrite (ao_x _ _ _ _ _ _ _ _ _ _ _ _ A). fold k.
    replace (r * sin h) with (d * cos h) by (rewrite (ao_r _ _ _ _ _ _ _ _ _ _ _ _ A); field; lra). ring.
Qed.
End ArcFacts.
