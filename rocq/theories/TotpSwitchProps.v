(** C159: the slope of the velocity limit along the path, and the switching points found on it
    (GetVelocityMaxPathVelocityDeriv, GetNextVelocitySwitchingPoint). *)
From Coq Require Import Reals Lra Lia.
From Verif Require Import Base MathModel TotpModel TotpVec TotpTrajModel TotpLimitProps.
Open Scope R_scope.

Section Slope.
Variables (n : nat) (tg cv : R -> vec) (vmax : vec).
(** Joint [k] alone limits the speed at [s]: the speed it allows is below the largest double and below what each other joint allows (written
    without the quotient, since a joint that does not move allows every speed). *)
Definition only_limit (s : R) (k : nat) : Prop :=
  (k < n)%nat /\ tg s k <> 0 /\ vmax k < dbl_max * Rabs (tg s k) /\
  forall i, (i < n)%nat -> i <> k -> Rabs (tg s i) * vmax k < vmax i * Rabs (tg s k).

Lemma vel_max_le_iff s v : v <= vel_max n tg vmax s <-> v <= dbl_max /\ forall i, In i (seq 0 n) -> tg s i <> 0 -> v <= vmax i / Rabs (tg s i).
Proof using n tg vmax.
  clear cv.
  unfold vel_max. rewrite (fold_min _ (fun i => tg s i <> 0 -> v <= vmax i / Rabs (tg s i))); [tauto|].
  intros m i _. unfold Reqb. destruct (Req_EM_T (tg s i) 0) as [E|E]; [tauto|]. rewrite le_min. tauto.
Qed.
(** The limit is what a joint that allows least allows. *)
Lemma vel_max_is s k : (k < n)%nat -> tg s k <> 0 -> vmax k / Rabs (tg s k) <= dbl_max ->
  (forall i, (i < n)%nat -> tg s i <> 0 -> vmax k / Rabs (tg s k) <= vmax i / Rabs (tg s i)) -> vel_max n tg vmax s = vmax k / Rabs (tg s k).
Proof using n tg vmax.
  clear cv.
  intros Hk Tk D A. apply Rle_antisym.
  - assert (H := Rle_refl (vel_max n tg vmax s)). apply vel_max_le_iff in H. destruct H as [_ H]. apply H; [apply in_seq; lia|exact Tk].
  - apply vel_max_le_iff. split; [exact D|]. intros i Hi. apply in_seq in Hi. apply A. lia.
Qed.
Lemma quotients a b x y : 0 < x -> 0 < y -> (a / x <= b / y <-> y * a <= b * x).
Proof using n tg vmax.
  clear cv.
  intros X Y. split; intros H.
  - apply (Rmult_le_compat_r (x * y)) in H; [|apply Rlt_le, Rmult_lt_0_compat; assumption].
    replace (a / x * (x * y)) with (y * a) in H by (field; lra). replace (b / y * (x * y)) with (b * x) in H by (field; lra). exact H.
  - apply (Rmult_le_reg_r (x * y)); [apply Rmult_lt_0_compat; assumption|].
    replace (a / x * (x * y)) with (y * a) by (field; lra). replace (b / y * (x * y)) with (b * x) by (field; lra). exact H.
Qed.
Lemma only_limit_is s k : only_limit s k -> vel_max n tg vmax s = vmax k / Rabs (tg s k).
Proof using n tg vmax.
  clear cv.
  intros (Hk & Tk & D & A). assert (P := Rabs_pos_lt _ Tk). apply vel_max_is; [assumption..| |].
  - apply Rlt_le, (Rmult_lt_reg_r (Rabs (tg s k))); [exact P|]. replace (vmax k / Rabs (tg s k) * Rabs (tg s k)) with (vmax k) by (field; lra). exact D.
  - intros i Hi Ti. destruct (Nat.eq_dec i k) as [->|N]; [lra|]. apply quotients; [exact P|apply Rabs_pos_lt, Ti|]. apply Rlt_le, A; assumption.
Qed.
(** The constraint the code picks. *)
Lemma active_fold s l : forall m0, let r := fold_left (fun (m : R * nat) i => if Reqb (tg s i) 0 then m else let x := vmax i / Rabs (tg s i) in if Rltb x (fst m) then (x, i) else m) l m0 in
  fst r <= fst m0 /\ (forall i, In i l -> tg s i <> 0 -> fst r <= vmax i / Rabs (tg s i)) /\
  (r = m0 \/ exists i, In i l /\ tg s i <> 0 /\ r = (vmax i / Rabs (tg s i), i)).
Proof using n tg vmax.
  clear cv.
  induction l as [|j l IH]; intros m0; cbn [fold_left]; cbv zeta.
  - split; [lra|]. split; [intros ? []|left; reflexivity].
  - set (m1 := if Reqb (tg s j) 0 then m0 else if Rltb (vmax j / Rabs (tg s j)) (fst m0) then (vmax j / Rabs (tg s j), j) else m0).
    assert (M : fst m1 <= fst m0 /\ (tg s j <> 0 -> fst m1 <= vmax j / Rabs (tg s j)) /\ (m1 = m0 \/ tg s j <> 0 /\ m1 = (vmax j / Rabs (tg s j), j))).
    { unfold m1, Reqb. destruct (Req_EM_T (tg s j) 0) as [E|E]; [split; [lra|]; split; [intros X; contradiction|left; reflexivity]|].
      destruct (Rltb _ (fst m0)) eqn:L; [apply Rltb_true in L|apply Rltb_false in L]; cbn [fst]; (split; [lra|]); (split; [lra|]); [right|left]; auto. }
    destruct (IH m1) as (I1 & I2 & I3). cbv zeta in I1, I2, I3. destruct M as (M1 & M2 & M3).
    split; [lra|]. split.
    + intros i [<-|Hi] Ti; [specialize (M2 Ti); lra|apply I2; assumption].
    + destruct I3 as [->|(i & Hi & Ti & ->)].
      * destruct M3 as [->|(Tj & ->)]; [left; reflexivity|right; exists j; split; [left; reflexivity|auto]].
      * right. exists i. split; [right; assumption|auto].
Qed.
Lemma active_spec s : vel_max n tg vmax s < dbl_max ->
  let k := active n tg vmax s in (k < n)%nat /\ tg s k <> 0 /\ vel_max n tg vmax s = vmax k / Rabs (tg s k).
Proof using n tg vmax.
  clear cv.
  intros H. unfold active. destruct (active_fold s (seq 0 n) (dbl_max, 0%nat)) as (F1 & F2 & F3). cbv zeta in F1, F2, F3 |- *. cbn [fst] in F1.
  set (r := fold_left _ _ _) in *. clearbody r.
  assert (B : fst r <= vel_max n tg vmax s) by (apply vel_max_le_iff; auto).
  destruct F3 as [->|(i & Hi & Ti & ->)]; [cbn [fst] in B; lra|]. cbn [fst snd] in *. apply in_seq in Hi. split; [lia|]. split; [exact Ti|].
  apply vel_max_is; [lia|exact Ti|lra|]. intros j Hj Tj. apply F2; [apply in_seq; lia|exact Tj].
Qed.
Lemma active_only s k : only_limit s k -> active n tg vmax s = k.
Proof using n tg vmax.
  clear cv.
  intros O. pose proof (only_limit_is s k O) as E. destruct O as (Hk & Tk & D & A). assert (P := Rabs_pos_lt _ Tk).
  assert (L : vel_max n tg vmax s < dbl_max).
  { rewrite E. apply (Rmult_lt_reg_r (Rabs (tg s k))); [exact P|]. replace (vmax k / Rabs (tg s k) * Rabs (tg s k)) with (vmax k) by (field; lra). exact D. }
  destruct (active_spec s L) as (H1 & H2 & H3). set (j := active n tg vmax s) in *. destruct (Nat.eq_dec j k) as [X|N]; [exact X|exfalso].
  specialize (A j H1 N). rewrite E in H3. assert (Q : vmax j / Rabs (tg s j) <= vmax k / Rabs (tg s k)) by lra.
  apply (quotients (vmax j) (vmax k) (Rabs (tg s j)) (Rabs (tg s k))) in Q; [|apply Rabs_pos_lt, H2|exact P]. lra.
Qed.
(** Near [s] the same joint limits the speed. *)
Lemma near_all (f : nat -> R -> R) s m : (forall i, (i < m)%nat -> continuity_pt (f i) s /\ 0 < f i s) ->
  exists d : posreal, forall h, Rabs h < d -> forall i, (i < m)%nat -> 0 < f i (s + h).
Proof.
  induction m as [|m IH]; intros H; [exists (mkposreal 1 Rlt_0_1); intros; lia|].
  destruct IH as [d1 D1]; [intros; apply H; lia|]. destruct (H m) as [C P]; [lia|].
  destruct (C (f m s) P) as (d2 & D2 & L). assert (DD : 0 < Rmin d1 d2) by (apply Rmin_glb_lt; [apply cond_pos|exact D2]).
  exists (mkposreal _ DD). intros h Hh i Hi. cbn in Hh. assert (h1 : Rabs h < d1) by (pose proof (Rmin_l d1 d2); lra).
  assert (h2 : Rabs h < d2) by (pose proof (Rmin_r d1 d2); lra).
  destruct (Nat.eq_dec i m) as [->|N]; [|apply D1; [exact h1|lia]].
  destruct (Req_EM_T h 0) as [->|Nz]; [rewrite Rplus_0_r; exact P|].
  assert (X : dist R_met (f m (s + h)) (f m s) < f m s).
  { apply L. split; [split; [exact I|intros E; apply Nz; lra]|]. cbn. unfold R_dist. replace (s + h - s) with h by ring. exact h2. }
  cbn in X. unfold R_dist in X. apply Rabs_def2 in X. lra.
Qed.
Lemma cont_abs f s : continuity_pt f s -> continuity_pt (fun x => Rabs (f x)) s.
Proof. intros C. apply (continuity_pt_comp f Rabs); [exact C|apply Rcontinuity_abs]. Qed.
Lemma near_only s k : (forall i, (i < n)%nat -> continuity_pt (fun x => tg x i) s) -> only_limit s k ->
  exists d : posreal, forall h, Rabs h < d -> only_limit (s + h) k.
Proof.
  intros C (Hk & Tk & D & A). assert (P := Rabs_pos_lt _ Tk). pose proof (cont_abs _ _ (C k Hk)) as Ck.
  destruct (near_all (fun i x => if Nat.eq_dec i k then Rabs (tg x k) else vmax i * Rabs (tg x k) - Rabs (tg x i) * vmax k) s n) as [d1 D1].
  { intros i Hi. destruct (Nat.eq_dec i k) as [->|N]; [split; assumption|]. split; [|specialize (A i Hi N); lra].
    apply (continuity_pt_minus (fun x => vmax i * Rabs (tg x k)) (fun x => Rabs (tg x i) * vmax k)).
    - apply (continuity_pt_mult (fun _ => vmax i) (fun x => Rabs (tg x k))); [apply continuity_pt_const; intros ? ?; reflexivity|exact Ck].
    - apply (continuity_pt_mult (fun x => Rabs (tg x i)) (fun _ => vmax k)); [exact (cont_abs _ _ (C i Hi))|apply continuity_pt_const; intros ? ?; reflexivity]. }
  destruct (near_all (fun _ x => dbl_max * Rabs (tg x k) - vmax k) s 1) as [d2 D2].
  { intros i Hi. split; [|lra]. apply (continuity_pt_minus (fun x => dbl_max * Rabs (tg x k)) (fun x => vmax k)); [|apply continuity_pt_const; intros ? ?; reflexivity].
    apply (continuity_pt_mult (fun _ => dbl_max) (fun x => Rabs (tg x k))); [apply continuity_pt_const; intros ? ?; reflexivity|exact Ck]. }
  assert (DD : 0 < Rmin d1 d2) by (apply Rmin_glb_lt; apply cond_pos). exists (mkposreal _ DD). intros h Hh. cbn in Hh.
  assert (h1 : Rabs h < d1) by (pose proof (Rmin_l d1 d2); lra). assert (h2 : Rabs h < d2) by (pose proof (Rmin_r d1 d2); lra).
  specialize (D1 h h1). specialize (D2 h h2 0%nat (Nat.lt_0_succ 0)). cbv beta in D1, D2.
  split; [exact Hk|]. split; [|split; [lra|]].
  - specialize (D1 k Hk). destruct (Nat.eq_dec k k) as [_|N]; [|contradiction]. intros E. rewrite E, Rabs_R0 in D1. lra.
  - intros i Hi N. specialize (D1 i Hi). destruct (Nat.eq_dec i k) as [X|_]; [contradiction|lra].
Qed.

(** Where one joint alone limits the speed and the curvature is the derivative of the tangent, GetVelocityMaxPathVelocityDeriv is the derivative
    of the velocity limit along the path. *)
Theorem C159_derivative s k : only_limit s k -> (forall i, (i < n)%nat -> derivable_pt_lim (fun x => tg x i) s (cv s i)) ->
  exists r, vel_max_deriv n tg cv vmax s = Fin r /\ derivable_pt_lim (vel_max n tg vmax) s r.
Proof.
  intros O DT. exists (- (vmax k * cv s k) / (tg s k * Rabs (tg s k))). pose proof O as (Hk & Tk & _ & _). assert (P := Rabs_pos_lt _ Tk). split.
  - unfold vel_max_deriv. rewrite (active_only s k O). unfold ediv, Reqb.
    destruct (Req_EM_T (tg s k * Rabs (tg s k)) 0) as [E|E]; [apply Rmult_integral in E; destruct E; lra|reflexivity].
  - destruct (near_only s k) as [d D]; [|exact O|].
    { intros i Hi. apply derivable_continuous_pt. exists (cv s i). exact (DT i Hi). }
    set (sg := if Rlt_dec 0 (tg s k) then 1 else -1).
    assert (DA : derivable_pt_lim Rabs (tg s k) sg).
    { unfold sg. destruct (Rlt_dec 0 (tg s k)) as [L|L]; [apply Rabs_derive_1, L|apply Rabs_derive_2; lra]. }
    assert (DC : derivable_pt_lim (comp Rabs (fun x => tg x k)) s (sg * cv s k)) by (apply derivable_pt_lim_comp; [exact (DT k Hk)|exact DA]).
    assert (DQ : derivable_pt_lim (div_fct (fct_cte (vmax k)) (comp Rabs (fun x => tg x k))) s (- (vmax k * cv s k) / (tg s k * Rabs (tg s k)))).
    { replace (- (vmax k * cv s k) / (tg s k * Rabs (tg s k))) with ((0 * comp Rabs (fun x => tg x k) s - sg * cv s k * fct_cte (vmax k) s) / Rsqr (comp Rabs (fun x => tg x k) s)).
      - apply derivable_pt_lim_div; [apply derivable_pt_lim_const|exact DC|unfold comp; lra].
      - unfold comp, fct_cte, Rsqr, sg. destruct (Rlt_dec 0 (tg s k)) as [L|L]; [rewrite Rabs_right by lra|rewrite Rabs_left by lra]; field; lra. }
    intros e He. destruct (DQ e He) as [d2 D2]. assert (DD : 0 < Rmin d d2) by (apply Rmin_glb_lt; apply cond_pos). exists (mkposreal _ DD). intros h Nz Hh. cbn in Hh.
    assert (h1 : Rabs h < d) by (pose proof (Rmin_l d d2); lra). assert (h2 : Rabs h < d2) by (pose proof (Rmin_r d d2); lra).
    rewrite (only_limit_is (s + h) k (D h h1)), (only_limit_is s k O). exact (D2 h Nz h2).
Qed.
End Slope.
Print Assumptions C159_derivative.

(** ** The search *)
Section Search.
Variables (n : nat) (tg cv : R -> vec) (len : R) (vmax amax : vec).
Notation limit := (vel_max n tg vmax).
(** The slope of strongest braking on the velocity limit: the least acceleration the joints allow there over the speed. *)
Definition braking (s : R) : R := min_max_acc n tg cv amax s (limit s) false / limit s.
(** The slope of the velocity limit at [s] is [r], by the formula that C159_derivative justifies, for a joint that reaches its limit. *)
Definition limit_slope (s r : R) : Prop :=
  vel_max_deriv n tg cv vmax s = Fin r /\ exists k, (k < n)%nat /\ tg s k <> 0 /\ limit s = vmax k / Rabs (tg s k) /\ r = - (vmax k * cv s k) / (tg s k * Rabs (tg s k)).
(** The velocity limit falls faster than the strongest braking follows; does not fall more slowly; falls exactly as fast. *)
Definition too_steep (s : R) : Prop := exists r, limit_slope s r /\ r < braking s.
Definition as_steep (s : R) : Prop := exists r, limit_slope s r /\ r <= braking s.
Definition just_steep (s : R) : Prop := exists r, limit_slope s r /\ r = braking s.
(** Every joint may move and at every position some joint limits the speed. *)
Hypothesis Hv : forall i, (i < n)%nat -> 0 < vmax i.
Hypothesis Hl : forall s, limit s < dbl_max.

Lemma limit_pos s : 0 < limit s.
Proof.
  destruct (active_spec n tg vmax s (Hl s)) as (H1 & H2 & H3). rewrite H3. apply Rmult_lt_0_compat; [apply Hv, H1|]. apply Rinv_0_lt_compat, Rabs_pos_lt, H2.
Qed.
Lemma slope_fin s : phase_slope n tg cv amax s (limit s) false = Fin (braking s).
Proof.
  unfold phase_slope, ediv, Reqb. pose proof (limit_pos s). destruct (Req_EM_T (limit s) 0) as [E|E]; [lra|reflexivity].
Qed.
Lemma deriv_fin s : exists r, limit_slope s r.
Proof.
  destruct (active_spec n tg vmax s (Hl s)) as (H1 & H2 & H3). set (k := active n tg vmax s) in *.
  exists (- (vmax k * cv s k) / (tg s k * Rabs (tg s k))). split; [|exists k; auto].
  unfold vel_max_deriv. fold k. cbv zeta. unfold ediv, Reqb. assert (P := Rabs_pos_lt _ H2).
  destruct (Req_EM_T (tg s k * Rabs (tg s k)) 0) as [E|E]; [apply Rmult_integral in E; destruct E; lra|reflexivity].
Qed.
Lemma slope_inj s r1 r2 : limit_slope s r1 -> limit_slope s r2 -> r1 = r2.
Proof. intros [E1 _] [E2 _]. congruence. Qed.
Lemma elt_spec s : elt (vel_max_deriv n tg cv vmax s) (phase_slope n tg cv amax s (limit s) false) = true <-> too_steep s.
Proof.
  rewrite slope_fin. destruct (deriv_fin s) as [r H]. pose proof H as [E _]. rewrite E. cbn [elt]. rewrite Rltb_true. split; [intros L; exists r; auto|].
  intros (r' & H' & L). rewrite (slope_inj _ _ _ H H'). exact L.
Qed.
Lemma ele_spec s : ele (vel_max_deriv n tg cv vmax s) (phase_slope n tg cv amax s (limit s) false) = true <-> as_steep s.
Proof.
  rewrite slope_fin. destruct (deriv_fin s) as [r H]. pose proof H as [E _]. rewrite E. cbn [ele]. rewrite Rleb_true. split; [intros L; exists r; auto|].
  intros (r' & H' & L). rewrite (slope_inj _ _ _ H H'). exact L.
Qed.
Lemma bool_iff (b : bool) P : (b = true <-> P) -> {b = true /\ P} + {b = false /\ ~ P}.
Proof. intros H. destruct b; [left; tauto|right; split; [reflexivity|]]. intros X. apply H in X. discriminate. Qed.
Lemma just s : as_steep s -> ~ too_steep s -> just_steep s.
Proof. intros (r & H & L) N. exists r. split; [exact H|]. destruct (Rlt_dec r (braking s)) as [X|X]; [exfalso; apply N; exists r; auto|lra]. Qed.

(** The positions the scan looks at. *)
Definition at_ (pos : R) (k : nat) : R := pos + INR k / 1000.
(** The search goes on at the [k]th position: no position so far was as steep as braking, or this one is steeper. *)
Definition goes_on (pos : R) (k : nat) : Prop := (forall j, (j <= k)%nat -> ~ as_steep (at_ pos j)) \/ too_steep (at_ pos k).

Lemma scan_spec pos fuel : forall k start q,
  (start = true <-> exists j, (j < k)%nat /\ as_steep (at_ pos j)) ->
  vel_scan n tg cv len vmax amax fuel (at_ pos k - / 1000) start = Ok q ->
  exists m, (k <= m)%nat /\ q = at_ pos m /\ (forall j, (k <= j < m)%nat -> goes_on pos j /\ at_ pos j < len) /\ (len <= q \/ ~ goes_on pos m).
Proof.
  induction fuel as [|f IH]; intros k start q HS E; [discriminate|]. cbn [vel_scan] in E. cbv zeta in E.
  replace (at_ pos k - / 1000 + / 1000) with (at_ pos k) in E by ring.
  set (st := start || _) in E.
  assert (HS' : st = true <-> exists j, (j < S k)%nat /\ as_steep (at_ pos j)).
  { unfold st. rewrite orb_true_iff, ele_spec, HS. split.
    - intros [(j & L & A)|A]; [exists j; split; [lia|exact A]|exists k; split; [lia|exact A]].
    - intros (j & L & A). destruct (Nat.eq_dec j k) as [->|N]; [right; exact A|left; exists j; split; [lia|exact A]]. }
  clearbody st.
  assert (G : (negb st || elt (vel_max_deriv n tg cv vmax (at_ pos k)) (phase_slope n tg cv amax (at_ pos k) (limit (at_ pos k)) false)) = true <-> goes_on pos k).
  { rewrite orb_true_iff, elt_spec. unfold goes_on. apply or_iff_compat_r. rewrite negb_true_iff. split.
    - intros X j L A. assert (st = true) by (apply HS'; exists j; split; [lia|exact A]). congruence.
    - intros X. destruct st; [|reflexivity]. exfalso. destruct HS' as [HS' _]. destruct (HS' eq_refl) as (j & L & A). apply (X j); [lia|exact A]. }
  destruct (bool_iff _ _ G) as [[B P]|[B P]]; rewrite B in E; cbn [andb] in E.
  - destruct (Rltb (at_ pos k) len) eqn:EL.
    + apply Rltb_true in EL. replace (at_ pos k) with (at_ pos (S k) - / 1000) in E at 1 by (unfold at_; rewrite S_INR; field).
      apply IH in E; [|exact HS']. destruct E as (m & M1 & M2 & M3 & M4). exists m. split; [lia|]. split; [exact M2|]. split; [|exact M4].
      intros j Hj. destruct (Nat.eq_dec j k) as [->|N]; [auto|apply M3; lia].
    + apply Rltb_false in EL. injection E as <-. exists k. split; [lia|]. split; [reflexivity|]. split; [intros; lia|left; exact EL].
  - injection E as <-. exists k. split; [lia|]. split; [reflexivity|]. split; [intros; lia|right; exact P].
Qed.
Lemma bisect_spec fuel : forall b a b' a', vel_bisect n tg cv vmax amax fuel b a = Ok (b', a') -> b < a -> ~ too_steep a ->
  b <= b' /\ b' < a' /\ a' <= a /\ a' - b' <= / 1000000 /\ ~ too_steep a' /\ (b' = b \/ too_steep b').
Proof.
  induction fuel as [|k IH]; intros b a b' a' E L H; [discriminate|]. cbn [vel_bisect] in E. cbv zeta in E.
  destruct (Rltb (/ 1000000) (a - b)) eqn:D; [apply Rltb_true in D|apply Rltb_false in D; injection E as <- <-; repeat split; auto; lra].
  destruct (bool_iff _ _ (elt_spec ((b + a) / 2))) as [[B P]|[B P]]; rewrite B in E; apply IH in E; try assumption; try lra;
    destruct E as (E1 & E2 & E3 & E4 & E5 & E6); repeat split; auto; try lra.
  destruct E6 as [->|E6]; right; assumption.
Qed.

(** The point found: looking at pos, pos + 1/1000, ..., the search stops at the first position [m] that follows one as steep as the braking (or is
    one) and is not steeper itself.  The returned position is within 1e-6 after a position where the limit is too steep to follow, the limit can be
    followed at it, the speed is the limit there, and the accelerations are the strongest braking before it and the strongest acceleration after.
    The exception: when the limit falls exactly as fast as the braking at position [m], the position before need not be too steep. *)
Theorem C159_found fuel pos s v b a : next_vel n tg cv len vmax amax fuel pos = Ok (Some (s, v, b, a)) ->
  exists m b0, (forall j, (j < m)%nat -> goes_on pos j) /\ ~ goes_on pos m /\ at_ pos m < len /\
    at_ pos m - / 1000 <= b0 /\ b0 < s /\ s <= at_ pos m /\ s - b0 <= / 1000000 /\
    ~ too_steep s /\ (too_steep b0 \/ just_steep (at_ pos m) /\ b0 = at_ pos m - / 1000) /\
    v = limit s /\ b = min_max_acc n tg cv amax b0 (limit b0) false /\ a = min_max_acc n tg cv amax s (limit s) true.
Proof.
  unfold next_vel. destruct (vel_scan n tg cv len vmax amax fuel (pos - / 1000) false) as [q| | | |] eqn:ES; try discriminate. cbn [obind].
  replace (pos - / 1000) with (at_ pos 0 - / 1000) in ES by (unfold at_; cbn [INR]; field).
  apply scan_spec in ES; [|split; [discriminate|intros (j & L & _); lia]]. destruct ES as (m & _ & -> & M3 & M4).
  destruct (Rleb len (at_ pos m)) eqn:EL; [discriminate|]. apply Rleb_false in EL. destruct M4 as [M4|M4]; [lra|].
  assert (NS : ~ too_steep (at_ pos m)) by (intros X; apply M4; right; exact X).
  destruct (vel_bisect n tg cv vmax amax fuel (at_ pos m - / 1000) (at_ pos m)) as [[b1 a1]| | | |] eqn:EB; try discriminate. cbn [obind].
  apply bisect_spec in EB; [|lra|exact NS]. destruct EB as (B1 & B2 & B3 & B4 & B5 & B6). intros E. injection E as <- <- <- <-.
  exists m, b1. split; [intros j Hj; apply M3; lia|]. split; [exact M4|]. split; [exact EL|]. split; [lra|]. split; [lra|]. split; [lra|]. split; [lra|]. split; [exact B5|].
  split; [|auto]. destruct B6 as [->|B6]; [|left; exact B6].
  destruct m as [|m].
  - right. split; [|reflexivity]. apply just; [|exact NS]. destruct (bool_iff _ _ (ele_spec (at_ pos 0))) as [[_ X]|[_ X]]; [exact X|].
    exfalso. apply M4. left. intros j Hj. replace j with 0%nat by lia. exact X.
  - destruct (M3 m) as [G _]; [lia|]. destruct G as [G|G].
    + right. split; [|reflexivity]. apply just; [|exact NS]. destruct (bool_iff _ _ (ele_spec (at_ pos (S m)))) as [[_ X]|[_ X]]; [exact X|].
      exfalso. apply M4. left. intros j Hj. destruct (Nat.eq_dec j (S m)) as [->|N]; [exact X|apply G; lia].
    + left. replace (at_ pos (S m) - / 1000) with (at_ pos m) by (unfold at_; rewrite S_INR; field). exact G.
Qed.
(** No point is found only when the search would go on at every position before the end. *)
Theorem C159_none fuel pos : next_vel n tg cv len vmax amax fuel pos = Ok None -> forall j, at_ pos j < len -> goes_on pos j.
Proof.
  unfold next_vel. destruct (vel_scan n tg cv len vmax amax fuel (pos - / 1000) false) as [q| | | |] eqn:ES; try discriminate. cbn [obind].
  replace (pos - / 1000) with (at_ pos 0 - / 1000) in ES by (unfold at_; cbn [INR]; field).
  apply scan_spec in ES; [|split; [discriminate|intros (j & L & _); lia]]. destruct ES as (m & _ & -> & M3 & M4).
  destruct (Rleb len (at_ pos m)) eqn:EL; [|destruct (vel_bisect _ _ _ _ _ _ _ _) as [[? ?]| | | |]; discriminate]. apply Rleb_true in EL. intros _ j Hj. apply M3.
  split; [lia|]. destruct (le_lt_dec m j) as [L|L]; [exfalso|exact L]. unfold at_ in *. apply le_INR in L. lra.
Qed.
(** The search ends: a round for every thousandth of the path that remains, and some more, suffice. *)
Lemma scan_ends fuel : forall pos start, len <= pos + INR fuel / 1000 -> exists q, vel_scan n tg cv len vmax amax (S fuel) pos start = Ok q.
Proof using Type.
  clear Hv Hl.
  induction fuel as [|f IH]; intros pos start L; cbn [vel_scan]; cbv zeta.
  - cbn [INR] in L. replace (Rltb (pos + / 1000) len) with false by (symmetry; apply Rltb_false; lra). rewrite andb_false_r. eexists. reflexivity.
  - destruct (_ && _); [|eexists; reflexivity]. cbn [vel_scan] in IH. apply IH. rewrite S_INR in L. lra.
Qed.
Lemma bisect_ends fuel : forall b a, a - b <= 2 ^ fuel / 1000000 -> exists x, vel_bisect n tg cv vmax amax (S fuel) b a = Ok x.
Proof using Type.
  clear Hv Hl.
  induction fuel as [|f IH]; intros b a L; cbn [vel_bisect]; cbv zeta.
  - cbn [pow] in L. replace (Rltb (/ 1000000) (a - b)) with false by (symmetry; apply Rltb_false; lra). eexists. reflexivity.
  - destruct (Rltb _ _); [|eexists; reflexivity]. cbn [vel_bisect] in IH. cbn [pow] in L. destruct (elt _ _); apply IH; lra.
Qed.
Theorem C159_ends fuel pos : (11 <= fuel)%nat -> (len - pos) * 1000 + 2 <= INR fuel -> exists r, next_vel n tg cv len vmax amax fuel pos = Ok r.
Proof using Type.
  clear Hv Hl.
  intros F1 F2. destruct fuel as [|f]; [lia|]. unfold next_vel. rewrite S_INR in F2. destruct (scan_ends f (pos - / 1000) false) as [q ->]; [lra|]. cbn [obind].
  destruct (Rleb len q); [eexists; reflexivity|]. destruct (bisect_ends f (q - / 1000) q) as [[x y] ->]; [|eexists; reflexivity].
  assert (2 ^ 10 <= 2 ^ f) by (apply Rle_pow; [lra|lia]). assert (2 ^ 10 = 1024) by ring. lra.
Qed.
End Search.
Print Assumptions C159_found. Print Assumptions C159_none. Print Assumptions C159_ends.

(** ** The hypotheses are met *)
(** On a unit circle with both joints limited to speed 1, the first joint alone limits the speed at the start. *)
Example derivative_case : exists r, vel_max_deriv 2 (fun s i => match i with 0%nat => cos s | _ => sin s end) (fun s i => match i with 0%nat => - sin s | _ => cos s end) (fun _ => 1) 0 = Fin r /\
  derivable_pt_lim (vel_max 2 (fun s i => match i with 0%nat => cos s | _ => sin s end) (fun _ => 1)) 0 r.
Proof.
  apply (C159_derivative 2 _ _ _ 0 0%nat).
  - split; [lia|]. cbv beta iota. rewrite cos_0, Rabs_R1. split; [lra|]. split; [unfold dbl_max; rewrite Rmult_1_r; apply IZR_lt; reflexivity|].
    intros i Hi N. destruct i as [|i]; [contradiction|]. rewrite sin_0, Rabs_R0. lra.
  - intros i Hi. destruct i as [|i]; cbv beta iota; [apply derivable_pt_lim_cos|apply derivable_pt_lim_sin].
Qed.

(** A path whose second joint bends less and less: up to position 1 the limit cannot be followed, from there it can. *)
Definition ex_tg (s : R) (i : nat) : R := match i with 0%nat => 1 | _ => / 2 end.
Definition ex_cv (s : R) (i : nat) : R := match i with 0%nat => 0 | _ => s - 2 end.
Lemma ex_limit s : vel_max 2 ex_tg (fun _ => 1) s = 1.
Proof.
  rewrite (vel_max_is 2 ex_tg (fun _ => 1) s 0); cbn [ex_tg]; rewrite ?Rabs_R1; try lra; try lia.
  - unfold dbl_max. replace (1 / 1) with 1 by field. apply IZR_le. discriminate.
  - intros i Hi _. destruct i; cbn [ex_tg]; [rewrite Rabs_R1; lra|]. rewrite Rabs_right by lra. lra.
Qed.
Lemma ex_big : 4 < dbl_max.
Proof. unfold dbl_max. apply IZR_lt. reflexivity. Qed.
Lemma ex_slope s r : limit_slope 2 ex_tg ex_cv (fun _ => 1) s r <-> r = 0.
Proof.
  assert (F : forall r, limit_slope 2 ex_tg ex_cv (fun _ => 1) s r -> r = 0).
  { intros r' [_ (k & Hk & _ & L & ->)]. rewrite ex_limit in L. destruct k as [|k]; cbn [ex_tg ex_cv] in *; [rewrite Rabs_R1; field|].
    exfalso. rewrite Rabs_right in L by lra. lra. }
  split; [apply F|]. intros ->. destruct (deriv_fin 2 ex_tg ex_cv (fun _ => 1)) with (s := s) as [r' H]; [intros; rewrite ex_limit; pose proof ex_big; lra|]. rewrite <- (F _ H). exact H.
Qed.
Lemma ex_braking s : s <= 4 -> braking 2 ex_tg ex_cv (fun _ => 1) (fun _ => 1) s = - Rmin 1 (2 + 2 * (s - 2)).
Proof.
  intros L. unfold braking. rewrite ex_limit. unfold min_max_acc. cbn [seq fold_left]. unfold Reqb, ex_tg, ex_cv. pose proof ex_big.
  destruct (Req_EM_T 1 0); [lra|]. destruct (Req_EM_T (/ 2) 0); [lra|]. rewrite Rabs_R1, (Rabs_right (/ 2)) by lra.
  replace (1 / 1 - -1 * 0 * 1 * 1 / 1) with 1 by field. replace (1 / / 2 - -1 * (s - 2) * 1 * 1 / / 2) with (2 + 2 * (s - 2)) by field.
  rewrite (Rmin_right dbl_max 1) by lra. field.
Qed.
Lemma ex_too s : s <= 4 -> (too_steep 2 ex_tg ex_cv (fun _ => 1) (fun _ => 1) s <-> s < 1).
Proof.
  intros L. unfold too_steep. rewrite ex_braking by exact L. split.
  - intros (r & H & X). apply ex_slope in H. subst r. destruct (Rlt_dec s 1) as [Y|Y]; [exact Y|exfalso].
    assert (0 <= Rmin 1 (2 + 2 * (s - 2))) by (apply Rmin_glb; lra). lra.
  - intros X. exists 0. split; [apply ex_slope; reflexivity|]. rewrite Rmin_right by lra. lra.
Qed.
Example found_case : exists s v b a, next_vel 2 ex_tg ex_cv 2 (fun _ => 1) (fun _ => 1) 1100 (1 - / 2000) = Ok (Some (s, v, b, a)) /\ 1 <= s < 2 /\ v = 1.
Proof.
  assert (Hv : forall i : nat, (i < 2)%nat -> 0 < (fun _ : nat => 1) i) by (intros; lra).
  assert (Hl : forall s, vel_max 2 ex_tg (fun _ => 1) s < dbl_max) by (intros; rewrite ex_limit; pose proof ex_big; lra).
  destruct (C159_ends 2 ex_tg ex_cv 2 (fun _ => 1) (fun _ => 1) 1100 (1 - / 2000)) as [r E]; [lia|rewrite INR_IZR_INZ; change (Z.of_nat 1100) with 1100%Z; lra|].
  destruct r as [[[[s v] b] a]|].
  - exists s, v, b, a. split; [exact E|]. apply (C159_found 2 ex_tg ex_cv 2 _ _ Hv Hl) in E. destruct E as (m & b0 & _ & _ & E1 & E2 & E3 & E4 & E5 & E6 & _ & -> & _).
    rewrite ex_limit. split; [|reflexivity]. split; [|lra]. destruct (Rle_dec 1 s) as [X|X]; [exact X|]. exfalso. apply E6. apply ex_too; lra.
  - exfalso. pose proof (C159_none 2 ex_tg ex_cv 2 _ _ Hv Hl _ _ E 1%nat) as G. unfold goes_on, at_ in G. cbn [INR] in G. destruct G as [G|G]; [lra| |].
    + specialize (G 0%nat). cbn [INR] in G. apply G; [lia|]. assert (T : too_steep 2 ex_tg ex_cv (fun _ => 1) (fun _ => 1) (1 - / 2000 + 0 / 1000)) by (apply ex_too; lra).
      destruct T as (r & T1 & T2). exists r. split; [exact T1|lra].
    + apply ex_too in G; lra.
Qed.
