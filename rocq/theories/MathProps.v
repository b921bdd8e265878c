(** C48-C52: revolute angles and weighted averages, over the real numbers. *)
From Coq Require Import Reals Lra.
From Flocq Require Import Core.Raux.
From Verif Require Import Base MathModel.
Open Scope R_scope.

Lemma Rltb_spec a b : Rltb a b = true <-> a < b.
Proof. unfold Rltb. destruct (Rlt_dec a b); split; intros; try lra; auto; discriminate. Qed.
Lemma Rltb_false a b : Rltb a b = false <-> b <= a.
Proof. unfold Rltb. destruct (Rlt_dec a b); split; intros; try lra; auto; discriminate. Qed.
Lemma Rleb_spec a b : Rleb a b = true <-> a <= b.
Proof. unfold Rleb. destruct (Rle_dec a b); split; intros; try lra; auto; discriminate. Qed.
Lemma Rleb_false a b : Rleb a b = false <-> b < a.
Proof. unfold Rleb. destruct (Rle_dec a b); split; intros; try lra; auto; discriminate. Qed.
Ltac atomic a := lazymatch a with context [if _ then _ else _] => fail | _ => idtac end.
Ltac cases :=
  repeat match goal with
  | |- context [Rltb ?a ?b] => atomic a; atomic b; let E := fresh "E" in destruct (Rltb a b) eqn:E; [apply Rltb_spec in E|apply Rltb_false in E]; try (exfalso; lra)
  | |- context [Rleb ?a ?b] => atomic a; atomic b; let E := fresh "E" in destruct (Rleb a b) eqn:E; [apply Rleb_spec in E|apply Rleb_false in E]; try (exfalso; lra)
  end.

(** ** Specification: angles with half turn [p] *)
(** The same angle: a whole number of turns apart. *)
Definition same_angle (p a b : R) : Prop := exists k : Z, b = a + 2 * p * IZR k.
(** [d] is the length of the shortest way, in either direction, from [a] to [b]. *)
Definition shortest (p a b d : R) : Prop :=
  (exists e, same_angle p (a + e) b /\ Rabs e = d) /\ forall e, same_angle p (a + e) b -> d <= Rabs e.

Section P.
Variable p : R.
Hypothesis Hp : 0 < p.

Lemma same_refl a : same_angle p a a.
Proof. exists 0%Z. lra. Qed.
Lemma same_sym a b : same_angle p a b -> same_angle p b a.
Proof. intros [k ->]. exists (- k)%Z. rewrite opp_IZR. lra. Qed.
Lemma same_trans a b c : same_angle p a b -> same_angle p b c -> same_angle p a c.
Proof. intros [k ->] [m ->]. exists (k + m)%Z. rewrite plus_IZR. lra. Qed.
Lemma same_shift a b c : same_angle p a b -> same_angle p (a + c) (b + c).
Proof. intros [k ->]. exists k. lra. Qed.
Lemma same_unique a b : same_angle p a b -> Rabs (a - b) < 2 * p -> a = b.
Proof.
  intros [k ->] H. assert (K : (Z.abs k < 1)%Z). { apply lt_IZR. rewrite abs_IZR. replace (a - (a + 2 * p * IZR k)) with (- (2 * p * IZR k)) in H by lra.
    rewrite Rabs_Ropp, Rabs_mult, (Rabs_pos_eq (2 * p)) in H by lra. apply (Rmult_lt_reg_l (2 * p)); lra. }
  replace k with 0%Z by lia. lra.
Qed.
Lemma fmod_spec v : same_angle p v (fmod v (2 * p)) /\ Rabs (fmod v (2 * p)) < 2 * p.
Proof.
  unfold fmod. set (q := v / (2 * p)). assert (V : v = 2 * p * q) by (unfold q; field; lra). split.
  - exists (- Ztrunc q)%Z. rewrite opp_IZR. lra.
  - rewrite V at 1. replace (2 * p * q - 2 * p * IZR (Ztrunc q)) with (2 * p * (q - IZR (Ztrunc q))) by lra.
    rewrite Rabs_mult, (Rabs_pos_eq (2 * p)) by lra. rewrite <- (Rmult_1_r (2 * p)) at 2. apply Rmult_lt_compat_l; [lra|].
    destruct (Rle_lt_dec 0 q) as [Q|Q].
    + rewrite Ztrunc_floor by auto. pose proof (Zfloor_lb q). pose proof (Zfloor_ub q). apply Rabs_def1; lra.
    + rewrite Ztrunc_ceil by lra. pose proof (Zceil_ub q). pose proof (Zfloor_lb (- q)). pose proof (Zfloor_ub (- q)).
      assert (IZR (Zceil q) < q + 1) by (unfold Zceil; rewrite opp_IZR; lra). apply Rabs_def1; lra.
Qed.
Lemma enforce_spec v : same_angle p v (enforce p v) /\ - p < enforce p v <= p.
Proof.
  unfold enforce. destruct (fmod_spec v) as [S B]. apply Rabs_def2 in B. cbn zeta.
  destruct (Rleb v (- p) || Rltb p v) eqn:E.
  - destruct (Rleb (fmod v (2 * p)) (- p)) eqn:E1; [apply Rleb_spec in E1|apply Rleb_false in E1; destruct (Rltb p (fmod v (2 * p))) eqn:E2; [apply Rltb_spec in E2|apply Rltb_false in E2]].
    + split; [|lra]. eapply same_trans; [exact S|]. exists 1%Z. lra.
    + split; [|lra]. eapply same_trans; [exact S|]. exists (-1)%Z. lra.
    + split; [auto|lra].
  - apply orb_false_iff in E as [E1 E2]. apply Rleb_false in E1. apply Rltb_false in E2. split; [apply same_refl|lra].
Qed.
Lemma enforce_id v : - p < v <= p -> enforce p v = v.
Proof.
  intros H. destruct (enforce_spec v) as [S B]. symmetry. apply same_unique; auto. apply Rabs_def1; lra.
Qed.
Lemma shortest_intro a b e : Rabs e <= p -> same_angle p (a + e) b -> shortest p a b (Rabs e).
Proof.
  intros B S. split; [exists e; auto|]. intros f F. destruct (Rle_lt_dec (Rabs e) (Rabs f)) as [X|X]; auto. exfalso.
  assert (E : e = f); [|subst; lra]. apply same_unique; [|]. 
  - apply same_trans with (b - a); [replace (b - a) with (b + - a) by lra; replace e with (a + e + - a) by lra; apply same_shift; auto|].
    apply same_sym. replace (b - a) with (b + - a) by lra. replace f with (a + f + - a) by lra. apply same_shift; auto.
  - replace (e - f) with (e + - f) by lra. pose proof (Rabs_triang e (- f)) as T. rewrite Rabs_Ropp in T. lra.
Qed.

(** The real displacement between two angles, and the code's version of it. *)
Lemma raw_same a b : same_angle p (a + (enforce p b - enforce p a)) b.
Proof.
  destruct (enforce_spec a) as [Sa _]. destruct (enforce_spec b) as [Sb _].
  apply same_trans with (enforce p b); [|apply same_sym; auto]. replace (enforce p b) with (enforce p a + (enforce p b - enforce p a)) at 2 by lra.
  apply same_shift. auto.
Qed.
Lemma signed_magnitude a b : exists e, same_angle p (a + e) b /\ Rabs e <= p /\
  (signed_distance p a b = e /\ - p < enforce p b - enforce p a <= p \/ signed_distance p a b = - e /\ ~ (- p < enforce p b - enforce p a <= p)).
Proof.
  pose proof (raw_same a b) as S. destruct (enforce_spec a) as [_ Ba]. destruct (enforce_spec b) as [_ Bb]. unfold signed_distance. cbn zeta.
  set (raw := enforce p b - enforce p a) in *. assert (RB : - (2 * p) < raw < 2 * p) by (unfold raw; lra).
  destruct (Rleb raw (- p)) eqn:E1; [apply Rleb_spec in E1|apply Rleb_false in E1; destruct (Rltb p raw) eqn:E2; [apply Rltb_spec in E2|apply Rltb_false in E2]].
  - exists (raw + 2 * p). split; [|split; [apply Rabs_le; lra|right; lra]]. apply same_trans with (a + raw); auto. exists (-1)%Z. lra.
  - exists (raw - 2 * p). split; [|split; [apply Rabs_le; lra|right; lra]]. apply same_trans with (a + raw); auto. exists 1%Z. lra.
  - exists raw. split; auto. split; [apply Rabs_le; lra|left; lra].
Qed.
End P.

(** C48: the angle returned is the same angle, in (-pi, pi], and the only one; angles already there stay. *)
Theorem C48_enforce : forall p v, 0 < p ->
  same_angle p v (enforce p v) /\ - p < enforce p v <= p /\ (forall w, same_angle p v w -> - p < w <= p -> enforce p v = w) /\ (- p < v <= p -> enforce p v = v).
Proof.
  intros p v Hp. destruct (enforce_spec p Hp v) as [S B]. split; auto. split; auto. split; [|apply enforce_id; auto].
  intros w W BW. apply (same_unique p Hp); [|apply Rabs_def1; lra]. apply (same_trans p) with v; auto. apply (same_sym p); auto.
Qed.
Print Assumptions C48_enforce.
Example C48_example : enforce 2 7 = -1 /\ enforce 2 (-2) = 2.
Proof.
  split; symmetry.
  - apply (same_unique 2); [lra| |].
    + apply (same_trans 2) with 7; [exists 2%Z; lra|]. apply (enforce_spec 2); lra.
    + pose proof (proj2 (enforce_spec 2 ltac:(lra) 7)). apply Rabs_def1; lra.
  - apply (same_unique 2); [lra| |].
    + apply (same_trans 2) with (-2); [exists (-1)%Z; lra|]. apply (enforce_spec 2); lra.
    + pose proof (proj2 (enforce_spec 2 ltac:(lra) (-2))). apply Rabs_def1; lra.
Qed.

(** AddContinuousRevoluteValues adds angles. *)
Theorem C48_add : forall p a b, 0 < p -> same_angle p (a + b) (add_revolute p a b) /\ - p < add_revolute p a b <= p.
Proof. intros p a b Hp. apply (enforce_spec p Hp). Qed.
Print Assumptions C48_add.

(** C49 (partial): the magnitude is the shortest angular distance, no more than pi; the sign is right when the two angles
    are no more than pi apart without wrapping, and exactly wrong otherwise. *)
Theorem C49_signed_distance_partial : forall p a b, 0 < p ->
  shortest p a b (Rabs (signed_distance p a b)) /\ Rabs (signed_distance p a b) <= p /\
  (- p < enforce p b - enforce p a <= p -> same_angle p (a + signed_distance p a b) b) /\
  (~ (- p < enforce p b - enforce p a <= p) -> same_angle p (a - signed_distance p a b) b).
Proof.
  intros p a b Hp. destruct (signed_magnitude p Hp a b) as (e & S & B & E).
  assert (A : Rabs (signed_distance p a b) = Rabs e) by (destruct E as [[-> _]|[-> _]]; auto using Rabs_Ropp).
  rewrite A. split; [apply shortest_intro; auto|]. split; auto.
  split; intros H; destruct E as [[-> X]|[-> X]]; try contradiction; auto. replace (a - - e) with (a + e) by lra. auto.
Qed.
Print Assumptions C49_signed_distance_partial.
(** The unsigned distance is the shortest one, and symmetric. *)
Theorem C49_distance : forall p a b, 0 < p -> shortest p a b (revolute_distance p a b) /\ revolute_distance p a b = revolute_distance p b a.
Proof.
  intros p a b Hp. assert (K : forall a b, shortest p a b (revolute_distance p a b)) by (intros x y; apply (C49_signed_distance_partial p x y Hp)).
  split; auto. assert (W : forall a b, revolute_distance p a b <= revolute_distance p b a); [|apply Rle_antisym; auto].
  intros x y. destruct (K x y) as [_ M]. destruct (K y x) as [(e & S & <-) _]. rewrite <- Rabs_Ropp. apply M. destruct S as [k E]. exists (- k)%Z. rewrite opp_IZR. lra.
Qed.
Print Assumptions C49_distance.
(** C49 is false across the cut: from 3/4 of a half turn to -3/4, the value returned leads elsewhere. *)
Theorem C49_sign_refuted : exists p a b, 0 < p /\ - p < a <= p /\ - p < b <= p /\ ~ same_angle p (a + signed_distance p a b) b.
Proof.
  exists 4, 3, (-3). repeat (split; [lra|]). unfold signed_distance. rewrite !enforce_id by lra. cbn zeta. cases; try lra.
  intros [k H]. assert (8 * IZR k = -4) by lra. assert (IZR (2 * k) = IZR (-1)) by (rewrite mult_IZR; lra). apply eq_IZR in H1. lia.
Qed.
Print Assumptions C49_sign_refuted.
Example C49_example : signed_distance 4 1 3 = 2 /\ signed_distance 4 3 (-3) = -2.
Proof. unfold signed_distance. rewrite !enforce_id by lra. cbn zeta. split; cases; lra. Qed.

(** C50: the result is the given share of a shortest way from a to b, in [-pi, pi]; ratios are clamped; at 0 and 1 it is
    the same angle as the ends. *)
Theorem C50_interpolate : forall p a b r, 0 < p ->
  let r' := Rmax 0 (Rmin 1 r) in let i := interpolate_revolute p a b r in
  - p <= i <= p /\ (exists e, same_angle p (a + e) b /\ shortest p a b (Rabs e) /\ same_angle p (a + r' * e) i) /\
  (r <= 0 -> same_angle p a i) /\ (1 <= r -> same_angle p b i).
Proof.
  intros p a b r Hp r' i. assert (U : unit_interval r = r').
  { unfold unit_interval, r'. cases; unfold Rmin, Rmax; repeat (destruct (Rle_dec _ _)); lra. }
  assert (RB : 0 <= r' <= 1) by (unfold r', Rmin, Rmax; repeat (destruct (Rle_dec _ _)); lra).
  assert (MAIN : - p <= i <= p /\ exists e, same_angle p (a + e) b /\ shortest p a b (Rabs e) /\ same_angle p (a + r' * e) i).
  { destruct (enforce_spec p Hp a) as [Sa Ba]. destruct (enforce_spec p Hp b) as [Sb Bb]. pose proof (raw_same p Hp a b) as S.
    unfold i, interpolate_revolute. rewrite U. cbn zeta. set (q1 := enforce p a) in *. set (q2 := enforce p b) in *. clearbody r' q1 q2.
    assert (K : forall e x, Rabs e <= p -> same_angle p (a + e) b -> same_angle p (q1 + r' * e) x -> - p <= x <= p ->
      - p <= x <= p /\ exists e, same_angle p (a + e) b /\ shortest p a b (Rabs e) /\ same_angle p (a + r' * e) x).
    { intros e x E1 E2 E3 E4. split; auto. exists e. split; auto. split; [apply shortest_intro; auto|]. apply (same_trans p) with (q1 + r' * e); auto. apply same_shift; auto. }
    destruct (Rleb (Rabs (q2 - q1)) p) eqn:D; [apply Rleb_spec in D|apply Rleb_false in D].
    - apply (K (q2 - q1)); auto; [replace (q1 + (q2 - q1) * r') with (q1 + r' * (q2 - q1)) by lra; apply same_refl|].
      replace (q1 + (q2 - q1) * r') with ((1 - r') * q1 + r' * q2) by lra. assert (0 <= 1 - r') by lra.
      assert (A1 : (1 - r') * - p <= (1 - r') * q1 <= (1 - r') * p) by (split; apply Rmult_le_compat_l; lra).
      assert (A2 : r' * - p <= r' * q2 <= r' * p) by (split; apply Rmult_le_compat_l; lra). lra.
    - (* the way round: e, of length less than pi *)
      assert (W : exists e, Rabs e <= p /\ same_angle p (a + e) b /\ - (if Rltb 0 (q2 - q1) then 2 * p - (q2 - q1) else - 2 * p - (q2 - q1)) = e).
      { destruct (Rltb 0 (q2 - q1)) eqn:Z; [apply Rltb_spec in Z; rewrite Rabs_pos_eq in D by lra|apply Rltb_false in Z; rewrite Rabs_left1 in D by lra]; eexists; (split; [|split; [|reflexivity]]).
        - apply Rabs_le. lra.
        - apply (same_trans p) with (a + (q2 - q1)); auto. exists 1%Z. lra.
        - apply Rabs_le. lra.
        - apply (same_trans p) with (a + (q2 - q1)); auto. exists (-1)%Z. lra. }
      destruct W as (e & E1 & E2 & E3). set (d := if Rltb 0 (q2 - q1) then _ else _) in *. replace d with (- e) by lra. clear E3. clearbody d.
      assert (EB : - p <= r' * e <= p). { apply Rabs_le_inv. rewrite Rabs_mult, (Rabs_pos_eq r') by lra. replace p with (1 * p) by lra. apply Rmult_le_compat; try lra. apply Rabs_pos. }
      apply (K e); auto; cases; try lra; [exists (-1)%Z|exists 1%Z|exists 0%Z]; lra. }
  destruct MAIN as (M1 & e & M2 & M3 & M4). split; auto. split; [exists e; auto|]. split; intros Hr.
  - replace r' with 0 in M4 by (unfold r', Rmin, Rmax; repeat (destruct (Rle_dec _ _)); lra). replace (a + 0 * e) with a in M4 by lra. auto.
  - replace r' with 1 in M4 by (unfold r', Rmin, Rmax; repeat (destruct (Rle_dec _ _)); lra). replace (a + 1 * e) with (a + e) in M4 by lra. apply (same_trans p) with (a + e); auto. apply same_sym; auto.
Qed.
Print Assumptions C50_interpolate.
Example C50_example : interpolate_revolute 4 3 (-3) (1 / 4) = 7 / 2 /\ interpolate_revolute 4 3 (-3) 5 = -3 /\ interpolate_revolute 4 1 3 (1 / 2) = 2.
Proof.
  unfold interpolate_revolute, unit_interval. rewrite !enforce_id by lra. cbn zeta.
  repeat match goal with |- context [Rabs ?x] => first [rewrite (Rabs_pos_eq x) by lra | rewrite (Rabs_left x) by lra] end. split; [|split]; cases; lra.
Qed.

(** ** Arcs *)
(** [t] is how far one has to turn, in the positive direction, from [a] to reach [b]. *)
Definition ahead (p a b t : R) : Prop := same_angle p (a + t) b /\ 0 <= t < 2 * p.
(** [v] lies on the arc traversed from [a] to [b] in the positive direction. *)
Definition on_arc (p a b v : R) : Prop := exists t s, ahead p a b t /\ ahead p a v s /\ s <= t.

(** C51 (partial): correct as long as neither the end nor the value is more than pi away from the start before wrapping. *)
Theorem C51_bounds_partial : forall p start end_ val, 0 < p ->
  - p < enforce p end_ - enforce p start <= p -> - p < enforce p val - enforce p start <= p ->
  (in_revolute_bounds p start end_ val = true <-> on_arc p start end_ val).
Proof.
  intros p start end_ val Hp HE HV. unfold in_revolute_bounds, in_revolute_range, revolute_range, signed_distance.
  destruct (enforce_spec p Hp start) as [_ Bs]. destruct (enforce_spec p Hp val) as [_ Bv]. rewrite (enforce_id p Hp (enforce p val)), (enforce_id p Hp (enforce p start)) by auto. cbn zeta.
  pose proof (raw_same p Hp start end_) as SE. pose proof (raw_same p Hp start val) as SV. set (re := enforce p end_ - enforce p start) in *. set (rv := enforce p val - enforce p start) in *. clearbody re rv.
  assert (AH : forall b r, - p < r <= p -> same_angle p (start + r) b -> ahead p start b (if Rleb 0 r then r else 2 * p + r)).
  { intros b r B S. cases; split; auto; try lra. apply (same_trans p) with (start + r); auto. exists (-1)%Z. lra. }
  assert (UN : forall b t s, ahead p start b t -> ahead p start b s -> t = s).
  { intros b t s [T1 T2] [S1 S2]. apply (same_unique p Hp); [|apply Rabs_def1; lra]. apply (same_trans p) with (b - start); [|apply same_sym];
    replace (b - start) with (b + - start) by lra; [replace t with (start + t + - start) by lra|replace s with (start + s + - start) by lra]; apply same_shift; auto. }
  assert (EQ : on_arc p start end_ val <-> (if Rleb 0 rv then rv else 2 * p + rv) <= (if Rleb 0 re then re else 2 * p + re)).
  { split.
    - intros (t & s & T & S & LE). rewrite (UN val _ s (AH val rv HV SV) S), (UN end_ _ t (AH end_ re HE SE) T). auto.
    - intros LE. eexists. eexists. split; [apply (AH end_ re HE SE)|]. split; [apply (AH val rv HV SV)|]. auto. }
  rewrite EQ. replace (Rleb re (- p)) with false by (symmetry; apply Rleb_false; lra). replace (Rltb p re) with false by (symmetry; apply Rltb_false; lra).
  replace (Rleb rv (- p)) with false by (symmetry; apply Rleb_false; lra). replace (Rltb p rv) with false by (symmetry; apply Rltb_false; lra).
  destruct (Rleb 0 rv); apply Rleb_spec.
Qed.
Print Assumptions C51_bounds_partial.
Example C51_example : in_revolute_bounds 4 (-1) 2 1 = true /\ in_revolute_bounds 4 (-1) 2 (5 / 2) = false /\ in_revolute_bounds 4 1 (-1) 3 = true.
Proof.
  unfold in_revolute_bounds, in_revolute_range, revolute_range, signed_distance. rewrite !enforce_id by (rewrite ?enforce_id; lra). cbn zeta.
  split; [|split]; cases; auto; lra.
Qed.
(** C51 is false across the cut: with a half turn of 4, the arc from 3 to -3 goes through 4 and does not contain 0, but 0 is accepted. *)
Theorem C51_bounds_refuted : exists p start end_ val, 0 < p /\ in_revolute_bounds p start end_ val = true /\ ~ on_arc p start end_ val.
Proof.
  exists 4, 3, (-3), 0. split; [lra|]. split.
  - unfold in_revolute_bounds, in_revolute_range, revolute_range, signed_distance. rewrite !enforce_id by (rewrite ?enforce_id; lra). cbn zeta. cases; auto; lra.
  - intros (t & s & ([k T1] & T2) & ([m S1] & S2) & LE).
    assert (T : t = 2). { assert (E : 2 = t); [|lra]. apply (same_unique 4); [lra| |apply Rabs_def1; lra]. exists (- k - 1)%Z. rewrite minus_IZR, opp_IZR. lra. }
    assert (S : s = 5). { assert (E : 5 = s); [|lra]. apply (same_unique 4); [lra| |apply Rabs_def1; lra]. exists (- m - 1)%Z. rewrite minus_IZR, opp_IZR. lra. }
    lra.
Qed.
Print Assumptions C51_bounds_refuted.

(** ** Averages *)
Definition Rsum (l : list R) : R := fold_right Rplus 0 l.
Definition weighted_sum (values weights : list R) : R := Rsum (map (fun c => Rabs (snd c) * fst c) (combine values weights)).
Definition total_weight (weights : list R) : R := Rsum (map Rabs weights).

Lemma average_loop : forall rest a s, 0 < s -> let r := fold_left average_step rest (a, s) in
  0 < snd r /\ snd r = s + Rsum (map (fun c => Rabs (snd c)) rest) /\ fst r * snd r = a * s + Rsum (map (fun c => Rabs (snd c) * fst c) rest).
Proof.
  induction rest as [|[v w] rest IH]; intros a s Hs; cbn [fold_left map Rsum fold_right].
  - cbn. split; [|split]; lra.
  - cbn [average_step fst snd]. pose proof (Rabs_pos w) as W. destruct (IH (a + Rabs w / (s + Rabs w) * (v - a)) (s + Rabs w) ltac:(lra)) as (H1 & H2 & H3).
    cbn zeta. split; auto. split; [rewrite H2; unfold Rsum; lra|]. rewrite H3. unfold Rsum. field_simplify; lra.
Qed.
Lemma average_bound (lo hi : R) : forall rest a s, 0 < s -> lo <= a <= hi -> (forall v w, In (v, w) rest -> w <> 0 -> lo <= v <= hi) -> lo <= fst (fold_left average_step rest (a, s)) <= hi.
Proof.
  induction rest as [|[v w] rest IH]; intros a s Hs Ha Hr; cbn [fold_left]; auto. cbn [average_step fst snd]. pose proof (Rabs_pos w) as W. apply IH; [lra| |intros; eapply Hr; eauto; right; eauto].
  destruct (Req_EM_T w 0) as [ -> |N].
  - rewrite Rabs_R0. unfold Rdiv. rewrite !Rmult_0_l, Rplus_0_r. auto.
  - pose proof (Hr v w (or_introl eq_refl) N) as V. set (t := Rabs w / (s + Rabs w)). assert (T : 0 <= t <= 1).
    { unfold t, Rdiv. split; [apply Rmult_le_pos; auto; left; apply Rinv_0_lt_compat; lra|]. apply (Rmult_le_reg_r (s + Rabs w)); [lra|]. rewrite Rmult_assoc, Rinv_l by lra. lra. }
    replace (a + t * (v - a)) with ((1 - t) * a + t * v) by lra.
    assert (A1 : (1 - t) * lo <= (1 - t) * a <= (1 - t) * hi) by (split; apply Rmult_le_compat_l; lra). assert (A2 : t * lo <= t * v <= t * hi) by (split; apply Rmult_le_compat_l; lra). lra.
Qed.
Lemma starting_spec : forall weights values i, length weights = length values -> (exists w, In w weights /\ w <> 0) ->
  exists k v w rest, starting_idx i weights = (i + k)%nat /\ (k < length values)%nat /\ skipn k (combine values weights) = (v, w) :: rest /\ w <> 0 /\
    In (v, w) (combine values weights) /\ (forall c, In c rest -> In c (combine values weights)) /\
    Rsum (map (fun c => Rabs (snd c)) (combine values weights)) = Rabs w + Rsum (map (fun c => Rabs (snd c)) rest) /\
    Rsum (map (fun c => Rabs (snd c) * fst c) (combine values weights)) = Rabs w * v + Rsum (map (fun c => Rabs (snd c) * fst c) rest).
Proof.
  induction weights as [|w weights IH]; intros values i Hl (w0 & I & N0); [destruct I|]. destruct values as [|v values]; [cbn in Hl; lia|]. cbn [starting_idx combine]. unfold Reqb.
  destruct (Req_EM_T w 0) as [ -> |N].
  - destruct I as [I|I]; [congruence|]. destruct (IH values (S i)) as (k & v' & w' & rest & E1 & E2 & E3 & E4 & E5 & E6 & E7 & E8); [cbn in Hl; lia|eauto|].
    exists (S k), v', w', rest. split; [lia|]. split; [cbn; lia|]. split; [exact E3|]. split; auto. split; [right; auto|]. split; [intros c Ic; right; auto|].
    cbn [map snd fst Rsum fold_right]. fold (Rsum (map (fun c => Rabs (snd c)) (combine values weights))). fold (Rsum (map (fun c => Rabs (snd c) * fst c) (combine values weights))).
    rewrite Rabs_R0. lra.
  - exists 0%nat, v, w, (combine values weights). split; [lia|]. split; [cbn; lia|]. split; auto. split; auto. split; [left; auto|]. split; [intros c Ic; right; auto|]. split; reflexivity.
Qed.
Lemma total_weight_combine : forall values weights : list R, length weights = length values -> total_weight weights = Rsum (map (fun c => Rabs (snd c)) (combine values weights)).
Proof.
  unfold total_weight. induction values as [|v values IH]; intros [|w weights] Hl; cbn in *; try lia; auto. unfold Rsum in *. rewrite IH by lia. reflexivity.
Qed.

(** C52: with as many weights as values, not all zero, the weighted mean, which lies within the values of non-zero weight. *)
Theorem C52_average : forall dbg values weights, length weights = length values -> (exists w, In w weights /\ w <> 0) ->
  exists a, average dbg values weights = Ok a /\ a = weighted_sum values weights / total_weight weights /\ 0 < total_weight weights /\
    (forall lo hi, (forall v w, In (v, w) (combine values weights) -> w <> 0 -> lo <= v <= hi) -> lo <= a <= hi).
Proof.
  intros dbg values weights Hl Hw. destruct (starting_spec weights values 0 Hl Hw) as (k & v & w & rest & E1 & E2 & E3 & E4 & E5 & E6 & E7 & E8).
  assert (NW : (0 < length weights)%nat) by lia. unfold average, cassert.
  replace (0 <? length values)%nat with true by (symmetry; apply Nat.ltb_lt; lia). rewrite Hl, Nat.eqb_refl. cbn [orb andb negb]. rewrite andb_false_r. rewrite E1.
  replace (0 + k <? length values)%nat with true by (symmetry; apply Nat.ltb_lt; lia). replace (length values =? 0)%nat with false by (symmetry; apply Nat.eqb_neq; lia).
  rewrite Nat.ltb_irrefl. cbn [negb andb]. rewrite andb_false_r. change (0 + k)%nat with k. rewrite E3. assert (W : 0 < Rabs w) by (apply Rabs_pos_lt; auto).
  replace (Rltb 0 (Rabs w)) with true by (symmetry; apply Rltb_spec; auto). cbn [negb]. rewrite andb_false_r.
  destruct (average_loop rest v (Rabs w) W) as (L1 & L2 & L3). eexists. split; [reflexivity|].
  assert (TW : total_weight weights = snd (fold_left average_step rest (v, Rabs w))) by (rewrite (total_weight_combine values), L2 by auto; lra).
  rewrite TW. split; [|split; auto].
  - unfold weighted_sum. rewrite E8. replace (Rabs w * v) with (v * Rabs w) by lra. rewrite <- L3. field. lra.
  - intros lo hi H. apply average_bound; [auto|apply (H v w); auto|]. intros v' w' I. apply H. auto.
Qed.
Print Assumptions C52_average.
(** Without weights, the mean. *)
Theorem C52_mean : forall dbg values, values <> [] -> average dbg values [] = Ok (Rsum values / INR (length values)).
Proof.
  intros dbg values NE. destruct values as [|v rest]; [congruence|]. unfold average, cassert. cbn [length Nat.ltb Nat.leb Nat.eqb orb andb negb starting_idx repeat combine skipn]. rewrite andb_false_r. cbn [andb negb].
  replace (Rltb 0 (Rabs 1)) with true by (symmetry; apply Rltb_spec; rewrite Rabs_R1; lra). cbn [negb]. rewrite andb_false_r. f_equal.
  destruct (average_loop (combine rest (repeat 1 (length rest))) v (Rabs 1) ltac:(rewrite Rabs_R1; lra)) as (L1 & L2 & L3). set (r := fold_left _ _ _) in *.
  assert (S1 : Rsum (map (fun c => Rabs (snd c)) (combine rest (repeat 1 (length rest)))) = INR (length rest)).
  { clear. induction rest as [|x rest IH]; [reflexivity|]. cbn [length]. rewrite S_INR. cbn [length repeat combine map Rsum fold_right snd]. unfold Rsum in IH. rewrite IH, Rabs_R1. lra. }
  assert (S2 : Rsum (map (fun c => Rabs (snd c) * fst c) (combine rest (repeat 1 (length rest)))) = Rsum rest).
  { clear. induction rest as [|x rest IH]; [reflexivity|]. cbn [length repeat combine map Rsum fold_right snd fst]. unfold Rsum in IH. rewrite IH, Rabs_R1. lra. }
  rewrite S1, Rabs_R1 in L2. rewrite S2, Rabs_R1 in L3. rewrite S_INR. cbn [Rsum fold_right]. fold (Rsum rest). replace (INR (length rest) + 1) with (snd r) by lra. replace (v + Rsum rest) with (fst r * snd r) by lra. field. lra.
Qed.
Print Assumptions C52_mean.
Example C52_example : average true [1; 5; 9] [0; -1; 3] = Ok (5 + 3 / (1 + 3) * (9 - 5)) /\ weighted_sum [1; 5; 9] [0; -1; 3] / total_weight [0; -1; 3] = 8.
Proof.
  split.
  - unfold average, cassert, starting_idx, Reqb. destruct (Req_EM_T 0 0) as [_|N]; [|exfalso; apply N; reflexivity]. destruct (Req_EM_T (-1) 0) as [N|_]; [exfalso; lra|]. cbn [length Nat.ltb Nat.leb Nat.eqb orb andb negb combine skipn fold_left average_step fst snd].
    rewrite (Rabs_left (-1)) by lra. rewrite (Rabs_pos_eq 3) by lra. replace (- -1) with 1 by lra. replace (Rltb 0 1) with true by (symmetry; apply Rltb_spec; lra). reflexivity.
  - unfold weighted_sum, total_weight. cbn [combine map Rsum fold_right fst snd]. rewrite (Rabs_left (-1)), (Rabs_pos_eq 3), Rabs_R0 by lra. field.
Qed.
(** All weights zero: no average; with assertions the program stops, without it reads out of range. *)
Theorem C52_zero_weights_refuted : exists values weights, length weights = length values /\ average true values weights = AssertFail /\ average false values weights = UB.
Proof.
  exists [1], [0]. split; auto. unfold average, cassert, starting_idx, Reqb. destruct (Req_EM_T 0 0) as [_|N]; [|exfalso; apply N; reflexivity]. split; reflexivity.
Qed.
Print Assumptions C52_zero_weights_refuted.
